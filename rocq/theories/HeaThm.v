(** * The hardware-efficient ansatz under the GPSR rule (C107) *)
From Coq Require Import String List Arith Bool Reals Lia Lra.
From Verif Require Import Cplx Py PyFacts Ndarray NdFacts OperatorUtils ApplyOperator Sparse Matrices Noise Gates Apply Composite Conversion Shots Gpsr GpsrSecond Api
  Spec SpecFacts Deriv GateSpec PropSpec NoiseSpec SampleSpec ExpectSpec GpsrSpec HessSpec StructSpec
  ApplyFacts GateFacts ApplyThm TensorFacts TensorThm GateThm SampleThm ExpectThm2 GpsrFacts GpsrThm GpsrThm2 GpsrThm3 HessThm StructThm StructThm2.
Import ListNotations.
Local Open Scope nat_scope.

Lemma hea_gate : forall n L fns prefix uuid g, 2 <= n -> In g (hea n L fns prefix uuid) ->
    (exists f m i, In f fns /\ m < L * n * length fns /\ i < n /\ g = f (PName (prefix ++ uuid m)%string) (TInt i) no_control None false) \/
    (exists j, j < n /\ g = NOT (TInt ((j + 1) mod n)) (IInt j) None false).
Proof.
  intros n L fns prefix uuid g Hn I. unfold hea in I. apply in_flat_map in I. destruct I as (l & Il & I). apply in_seq in Il.
  apply in_flat_map in I. destruct I as (i & Ii & I). apply in_seq in Ii. apply in_app_or in I. destruct I as [I|I].
  - left. unfold hea_rotations in I. apply in_map_iff in I. destruct I as ([k f] & <- & I). cbn [fst snd].
    pose proof (in_combine_l _ _ _ _ I) as Ik. apply in_seq in Ik. exists f, ((l * n + i) * length fns + k), i.
    split; [exact (in_combine_r _ _ _ _ I)|split; [|split; [lia|reflexivity]]].
    unfold rot_fn in *. set (q := length fns) in *. apply Nat.lt_le_trans with ((l * n + i + 1) * q); [lia|]. apply Nat.mul_le_mono_r.
    apply Nat.le_trans with ((l + 1) * n); [lia|]. apply Nat.mul_le_mono_r. lia.
  - right. unfold hea_ring in I. apply in_map_iff in I. destruct I as (j & <- & I). apply in_seq in I. rewrite (Nat.mod_small j) by lia. exists j; split; [lia|reflexivity].
Qed.

Lemma hea_usable : forall n L fns prefix uuid vals, 2 <= n -> Forall (fun f => In f [RX; RY; RZ; PHASE]) fns ->
    (forall m, m < L * n * length fns -> exists x, lookup vals (prefix ++ uuid m) = Ok (VNum x)) -> Forall (usable n vals) (hea n L fns prefix uuid).
Proof.
  intros n L fns prefix uuid vals Hn F V. apply Forall_forall. intros g I. destruct (hea_gate _ _ _ _ _ _ Hn I) as [(f & m & i & If & Hm & Hi & ->)|(j & Hj & ->)].
  - rewrite Forall_forall in F. apply (parametric_usable n vals f _ i no_control []); [exact (F f If)|exact (V _ Hm)|apply cq_default|]. split; [repeat constructor; simpl; tauto|repeat constructor; lia].
  - apply (fixed_usable n vals NOT _ (IInt j) [j]); [right; left; reflexivity|apply (cq_ints [j])|].
    assert (M : (j + 1) mod n < n) by (apply Nat.mod_upper_bound; lia).
    assert (D : j <> (j + 1) mod n). { destruct (Nat.eq_dec (j + 1) n) as [Q|Q]; [rewrite Q, Nat.mod_same by lia; lia|rewrite Nat.mod_small by lia; lia]. }
    split; [|repeat constructor; simpl; lia]. constructor; [simpl; intros [E|[]]; congruence|]. repeat constructor; simpl; tauto.
Qed.

Lemma hea_side : forall n L fns prefix uuid, 2 <= n -> Forall (fun f => In f [RX; RY; RZ]) fns ->
    Forall (fun g => dense_gate g /\ noise_ok g /\ noise g = None /\ gclass g <> KPhase /\ (names_of_gate g <> [] -> plain_rotation g)) (hea n L fns prefix uuid).
Proof.
  intros n L fns prefix uuid Hn F. apply Forall_forall. intros g I. destruct (hea_gate _ _ _ _ _ _ Hn I) as [(f & m & i & If & Hm & Hi & ->)|(j & Hj & ->)].
  - rewrite Forall_forall in F. specialize (F f If). simpl in F. destruct F as [<-|[<-|[<-|[]]]];
      (split; [reflexivity|split; [exact Logic.I|split; [reflexivity|split; [discriminate|intros _]]]]; split; [reflexivity|split; [simpl; tauto|apply cq_default]]).
  - split; [reflexivity|split; [exact Logic.I|split; [reflexivity|split; [discriminate|]]]]. intro H; exfalso; apply H; reflexivity.
Qed.

Lemma hea_param_names : forall n L fns prefix uuid, 2 <= n -> Forall (fun f => In f [RX; RY; RZ]) fns ->
    flat_map names_of_gate (hea n L fns prefix uuid) = map (fun m => (prefix ++ uuid m)%string) (seq 0 (L * n * length fns)).
Proof.
  intros n L fns prefix uuid Hn F. rewrite <- (hea_names (fun _ => EmptyString)) by (eapply Forall_impl; [|exact F]; simpl; tauto).
  rewrite !flat_map_concat_map. f_equal. apply map_ext_in. intros g I. destruct (hea_gate _ _ _ _ _ _ Hn I) as [(f & m & i & If & Hm & Hi & ->)|(j & Hj & ->)]; [|reflexivity].
  rewrite Forall_forall in F. specialize (F f If). simpl in F. destruct F as [<-|[<-|[<-|[]]]]; reflexivity.
Qed.

Lemma gates_circuit : forall n gs fp, sequence_of (QuantumCircuit n (AList (map OGate gs)) fp) gs.
Proof.
  intros n gs fp. unfold QuantumCircuit, list_of.
  assert (E : gs = concat (map (fun g => [g]) gs)) by (induction gs as [|g gs IH]; [reflexivity|cbn [map concat app]; rewrite <- IH; reflexivity]).
  rewrite E at 2. apply so_qc. clear E. induction gs as [|g gs IH]; [apply Forall2_nil|]. apply Forall2_cons; [apply so_gate|exact IH].
Qed.

Lemma c107_hea : forall w n L fns prefix uuid vals fp st obs Ks key, set_order (set_iter w) -> 2 <= n -> 0 < L ->
    Forall (fun f => In f [RX; RY; RZ]) fns -> (forall i j, uuid i = uuid j -> i = j) ->
    numeric_values vals -> vals <> [] -> (forall m, m < L * n * length fns -> In (prefix ++ uuid m)%string (map fst vals)) ->
    state_of n st -> obs <> [] -> (forall v, Forall2 (readable w n v st (hea n L fns prefix uuid)) obs Ks) ->
    let circuit := QuantumCircuit n (AList (map OGate (hea n L fns prefix uuid))) fp in
    let F := fun v => expectation w st circuit obs v GPSR 0 key in
    exists fwd (G : string -> list R) (H : string -> string -> list R),
      F vals = Ok fwd /\
      (forall a, In a (map fst vals) -> gradient_at F vals a (G a)) /\
      (forall a b, In a (map fst vals) -> In b (map fst vals) -> second_derivative_at F vals a b (H a b) /\ H a b = H b a) /\
      analytical_gpsr_bwd w st (GMany (hea n L fns prefix uuid)) obs vals = Ok (map (fun a => total (G a)) (map fst vals)) /\
      (forall t fresh, length t = length vals ->
        analytical_gpsr_jvp w st (GMany (hea n L fns prefix uuid)) obs vals t fresh = Ok (fwd, directional (length obs) (map G (map fst vals)) t)) /\
      (forall t1 t2 fresh fresh2, length t1 = length vals -> length t2 = length vals -> (forall i j, fresh i = fresh j -> i = j) ->
        analytical_gpsr_second w st (GMany (hea n L fns prefix uuid)) obs vals t1 t2 fresh fresh2 =
        Ok (second_directional (length obs) (map (fun a => map (H a) (map fst vals)) (map fst vals)) t1 t2)).
Proof.
  intros w n L fns prefix uuid vals fp st obs Ks key SO Hn HL HF HU NV NE HV HS OE HK circuit F.
  set (gs := hea n L fns prefix uuid) in *.
  assert (SQ : sequence_of circuit gs) by apply gates_circuit.
  assert (GE : gs <> []).
  { intro E. apply (f_equal (@length gate)) in E. unfold gs in E. rewrite (proj1 (c66_blocks_thm _ _ _ _ _)) in E. cbn [length] in E. unfold rot_fn in *. apply Nat.eq_mul_0 in E. destruct E as [E|E]; [apply Nat.eq_mul_0 in E|]; lia. }
  assert (US : Forall (usable n vals) gs).
  { apply hea_usable; [exact Hn|eapply Forall_impl; [|exact HF]; simpl; tauto|]. intros m Hm. apply numeric_lookup; [exact NV|apply HV; exact Hm]. }
  pose proof (hea_side n L fns prefix uuid Hn HF) as SD. fold gs in SD. rewrite Forall_forall in SD.
  assert (FD : Forall dense_gate gs) by (apply Forall_forall; intros g I; apply (SD g I)).
  assert (FN : Forall noise_ok gs) by (apply Forall_forall; intros g I; apply (SD g I)).
  assert (FP : Forall (fun g => gclass g <> KPhase) gs) by (apply Forall_forall; intros g I; apply (SD g I)).
  assert (PR : forall g, In g gs -> names_of_gate g <> [] -> plain_rotation g) by (intros g I; apply (SD g I)).
  assert (UO : used_once gs).
  { unfold used_once, gs. rewrite hea_param_names by assumption. apply nodup_map_inj; [|apply seq_NoDup]. intros x y E. apply HU, (append_inj prefix), E. }
  destruct (c52_exact w n vals circuit gs st obs key SO NV NE SQ GE US FD FN HS OE UO) as (fwd & grads & E1 & E2 & E3 & E4 & E5);
    [intros name t _; exists Ks; apply HK|].
  destruct (c106_hessian w n vals circuit gs st obs Ks key SO NV NE SQ GE US FD FN HS OE HK PR (or_introl UO)) as (H & HD & HC).
  assert (GM : exists G : string -> list R, map G (map fst vals) = grads).
  { clear -E2 NV. destruct NV as [ND _]. rewrite <- (map_length fst vals) in E2. revert grads E2. induction ND as [|k ks Nk ND IH]; intros [|g grads] E2; try discriminate; [exists (fun _ => []); reflexivity|].
    injection E2 as E2. destruct (IH grads E2) as (G & EG). exists (fun s => if String.eqb s k then g else G s). cbn [map]. rewrite String.eqb_refl. f_equal. rewrite <- EG. apply map_ext_in. intros a Ia.
    destruct (String.eqb_spec a k) as [->|]; [contradiction|reflexivity]. }
  destruct GM as (G & EG). exists fwd, G, H. split; [exact E1|split; [|split; [exact HD|split; [|split; [|exact HC]]]]].
  - intros a Ia. apply In_nth_error in Ia. destruct Ia as (k & Ek).
    assert (EN : nth k grads [] = G a).
    { rewrite <- EG. apply (nth_error_nth (map G (map fst vals)) k). rewrite nth_error_map, Ek. reflexivity. }
    rewrite <- EN. apply E3; [exact Ek| |exists Ks; intro t; apply HK].
    intros g Ig IN. apply PR; [exact Ig|]. intro Q. rewrite Q in IN. destruct IN.
  - rewrite (E4 FP), <- EG, map_map. reflexivity.
  - intros t fresh Ht. rewrite EG. apply E5; exact Ht.
Qed.
