(** * C107: training the hardware-efficient ansatz with the GPSR rule.

    The vocabulary is in Spec.v, GateSpec.v, PropSpec.v, SampleSpec.v, ExpectSpec.v, GpsrSpec.v and HessSpec.v; [hea] is modelled in Composite.v.
    [uuid i] is the [i]-th result of uuid4.  The theorem is followed by an example that meets its hypotheses. *)
From Coq Require Import String List Arith Bool Reals Lia Lra ZArith.
From Verif Require Import Cplx Py Ndarray OperatorUtils ApplyOperator Sparse Matrices Noise Gates Apply Composite Conversion Shots Gpsr GpsrSecond Api
  Spec Deriv GateSpec PropSpec NoiseSpec SampleSpec ExpectSpec GpsrSpec HessSpec GpsrThm GpsrThm2 GpsrThm3 StructThm2 HeaThm Examples.
Import ListNotations.
Local Open Scope nat_scope.

Theorem C107_ansatz_gradients_and_hessians : forall w n L fns prefix uuid vals fp st obs Ks key, set_order (set_iter w) -> 2 <= n -> 0 < L ->
    Forall (fun f => In f [RX; RY; RZ]) fns -> (forall i j, uuid i = uuid j -> i = j) ->
    numeric_values vals -> vals <> [] -> (forall m, m < L * n * length fns -> In (prefix ++ uuid m)%string (map fst vals)) ->
    state_of n st -> obs <> [] -> (forall v, Forall2 (readable w n v st (hea n L fns prefix uuid)) obs Ks) ->
    let circuit := QuantumCircuit n (AList (map OGate (hea n L fns prefix uuid))) fp in
    let F := fun v => expectation w st circuit obs v GPSR 0 key in
    exists fwd (G : string -> list R) (H : string -> string -> list R),
      F vals = Ok fwd /\
      (forall a, In a (map fst vals) -> gradient_at F vals a (G a)) /\
      (forall a b, In a (map fst vals) -> In b (map fst vals) -> second_derivative_at F vals a b (H a b) /\ H a b = H b a) /\
      analytical_gpsr_bwd w st (GMany (hea n L fns prefix uuid)) obs vals = Ok (map (fun a => total (G a)) (map fst vals)) /\
      (forall t fresh, length t = length vals ->
        analytical_gpsr_jvp w st (GMany (hea n L fns prefix uuid)) obs vals t fresh = Ok (fwd, directional (length obs) (map G (map fst vals)) t)) /\
      (forall t1 t2 fresh fresh2, length t1 = length vals -> length t2 = length vals -> (forall i j, fresh i = fresh j -> i = j) ->
        analytical_gpsr_second w st (GMany (hea n L fns prefix uuid)) obs vals t1 t2 fresh fresh2 =
        Ok (second_directional (length obs) (map (fun a => map (H a) (map fst vals)) (map fst vals)) t1 t2)).
Proof. exact c107_hea. Qed.
Print Assumptions C107_ansatz_gradients_and_hessians.
(** any depth, three qubits, X and Z measured on qubit 0, two rotations per qubit and layer, arbitrary angles *)
Example C107_example : forall L (x : nat -> R), 0 < L ->
    let names := map (fun m => ("v_" ++ unary m)%string) (seq 0 (L * 3 * 2)) in
    let vals := map (fun m => (("v_" ++ unary m)%string, VNum (x m))) (seq 0 (L * 3 * 2)) in
    let F := fun v => expectation ex_world (SDense (basis [0; 0; 0])) (QuantumCircuit 3 (AList (map OGate (hea 3 L [RX; RZ] "v_" unary))) []) [z0_obs; x0_obs] v GPSR 0 0 in
    exists G H, (forall a, In a names -> gradient_at F vals a (G a)) /\ (forall a b, In a names -> In b names -> second_derivative_at F vals a b (H a b)) /\
      analytical_gpsr_bwd ex_world (SDense (basis [0; 0; 0])) (GMany (hea 3 L [RX; RZ] "v_" unary)) [z0_obs; x0_obs] vals = Ok (map (fun a => total (G a)) names).
Proof.
  intros L x HL names vals F.
  assert (EK : map fst vals = names) by (unfold vals, names; rewrite map_map; reflexivity).
  assert (HF : Forall (fun f => In f [RX; RY; RZ]) [RX; RZ]) by (repeat (apply Forall_cons; [simpl; tauto|]); apply Forall_nil).
  destruct (C107_ansatz_gradients_and_hessians ex_world 3 L [RX; RZ] "v_" unary vals [] (SDense (basis [0; 0; 0])) [z0_obs; x0_obs]
    [ksum [gate_op Z_matrix [] [0]]; ksum [gate_op X_matrix [] [0]]] 0) as (fwd & G & H & _ & HG & HH & HB & _).
  - exact ex_world_order.
  - lia.
  - exact HL.
  - exact HF.
  - exact unary_inj.
  - split.
    + rewrite EK. apply nodup_map_inj; [|apply seq_NoDup]. intros i j E. apply unary_inj, (append_inj "v_"), E.
    + apply Forall_forall. intros kv I. apply in_map_iff in I. destruct I as (m & <- & _). eexists; reflexivity.
  - unfold vals. destruct L as [|L]; [lia|]. discriminate.
  - intros m Hm. rewrite EK. unfold names. apply in_map_iff. exists m. split; [reflexivity|]. apply in_seq. cbn [length] in Hm. lia.
  - exact ex_basis.
  - discriminate.
  - intro v. assert (NM : ~ mixes (SDense (basis [0; 0; 0])) (hea 3 L [RX; RZ] "v_" unary)).
    { apply no_mix. eapply Forall_impl; [|exact (hea_side 3 L [RX; RZ] "v_" unary ltac:(lia) HF)]. cbn beta. intros g K; apply K. }
    apply Forall2_cons; [|apply Forall2_cons; [|apply Forall2_nil]]; (split; [exists false|intro M; contradiction]); [apply z0_obs_on|apply x0_obs_on]; lia.
  - exists G, H. rewrite EK in HG, HH, HB. split; [exact HG|split; [intros a b Ia Ib; apply HH; assumption|exact HB]].
Qed.
