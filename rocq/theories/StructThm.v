(** * Pytrees, conversion, parameter names (C59-C65) *)
From Coq Require Import String List Arith Bool Reals Lia Lra.
From Verif Require Import Cplx Py PyFacts Ndarray OperatorUtils Sparse Noise Gates Apply Composite Conversion Spec GateSpec ExpectSpec StructSpec ApplyFacts SampleThm ExpectThm2.
Import ListNotations.
Local Open Scope nat_scope.

Lemma reparse : forall c, parse_control (reparse_control (parse_control c)) = parse_control c.
Proof. destruct c; reflexivity. Qed.
Lemma reparse' : forall c, parse_control (reparse_control c) = c.
Proof. destruct c; reflexivity. Qed.

Lemma mapM_id : forall {A B} (f : A -> res B) (h : A -> B) l, Forall (fun x => f x = Ok (h x)) l -> mapM f l = Ok (map h l).
Proof. intros A B f h l F; induction F as [|x l E F IH]; [reflexivity|]. cbn [mapM map]. rewrite E. cbn [bind]. rewrite IH. reflexivity. Qed.

(** ** C59-C61 *)
Lemma c59_gate_thm : forall g, built g -> gate_roundtrip g = Ok g.
Proof. intros g B; destruct B; unfold gate_roundtrip, gate_flatten; cbn; rewrite reparse'; reflexivity. Qed.
Lemma c59_oper_thm : forall o, no_circuit o -> Forall built (all_gates o) -> oper_roundtrip o = Ok o.
Proof.
  induction o as [g|l IH|l p IH|l IH|l IH|n l fp IH] using oper_ind'; intros N B; inversion N; subst; cbn [oper_roundtrip all_gates] in *.
  1: { inversion B; subst. rewrite c59_gate_thm by assumption. reflexivity. }
  all: match goal with H : Forall no_circuit ?x |- _ => rename H into NL; try rename x into l end.
  all: assert (E : mapM oper_roundtrip l = Ok (map (fun x => x) l)) by
      (apply mapM_id; clear N; induction IH as [|x l Hx F IHl]; [apply Forall_nil|];
       inversion NL; subst; cbn [flat_map] in B; apply Forall_app in B; destruct B as [B1 B2]; apply Forall_cons; [apply Hx; assumption|apply IHl; assumption]);
    rewrite E, map_id; reflexivity.
Qed.
Lemma c59_noise_thm : forall n, noise_unflatten (noise_flatten n) = n.
Proof. destruct n; reflexivity. Qed.
Lemma c59_density_thm : forall a, exists x, dm_flatten (SDM a) = Some x /\ dm_unflatten x = SDM a.
Proof. intro a; exists a; split; reflexivity. Qed.

Lemma c60_partial_thm : forall n l fp,
    let '(first, second) := qc_flatten n l fp in qc_unflatten first second = Ok (mkPyCircuit (PyInt n) (PyOps l) (PyStrs fp)).
Proof. reflexivity. Qed.
Lemma c60_refuted_thm : forall n l fp, qc_roundtrip n l fp <> Ok (mkPyCircuit (PyInt n) (PyOps l) (PyStrs fp)).
Proof. intros n l fp H; discriminate H. Qed.

Lemma c61_partial_thm : forall name t c ns sp, gate_roundtrip (evolution name t c ns sp 0) = Ok (evolution name t c ns sp 0).
Proof. intros; unfold gate_roundtrip, gate_flatten; cbn; rewrite reparse'; reflexivity. Qed.
Lemma c61_refuted_thm : forall name t c ns sp s, s <> 0%R ->
    exists g, gate_roundtrip (evolution name t c ns sp s) = Ok g /\ g <> evolution name t c ns sp s /\ shift g = 0%R.
Proof.
  intros name t c ns sp s Hs. exists (evolution name t c ns sp 0). split; [unfold gate_roundtrip, gate_flatten; cbn; rewrite reparse'; reflexivity|].
  split; [|reflexivity]. intro E. apply (f_equal shift) in E. cbn in E. congruence.
Qed.

(** ** C62, C63 *)
Lemma gate_convert_ok : forall b g, built_any g -> gate_convert b g = Ok (with_sparse b g).
Proof.
  intros b g [B|(name & t & c & ns & sp & ->)]; [destruct B|]; unfold gate_convert, gate_flatten, with_sparse; cbn; rewrite reparse'; reflexivity.
Qed.
Lemma plain_simple : forall o, plain_nesting o -> simple_nesting o.
Proof.
  induction o as [g|l IH|l p IH|l IH|l IH|n l fp IH] using oper_ind'; intro N; inversion N; subst; clear N.
  1: apply sn_gate.
  all: [> apply sn_seq | apply sn_add | apply sn_obs]; rewrite Forall_forall in *; auto.
Qed.
Lemma iter_scale : forall b o, gate_or_scale o -> iter (with_sparse_oper b o) = [with_sparse_oper b o].
Proof. destruct o; simpl; intro H; try contradiction; reflexivity. Qed.
Lemma convert_ok : forall b o, simple_nesting o -> Forall built_any (all_gates o) -> convert b o = Ok (with_sparse_oper b o).
Proof.
  intro b. induction o as [g|l IH|l p IH|l IH|l IH|n l fp IH] using oper_ind'; intros N B.
  1: { cbn [convert all_gates with_sparse_oper] in *. inversion B; subst. rewrite gate_convert_ok by assumption. reflexivity. }
  2: { inversion N; subst. pose proof (Forall_inv IH) as HO. cbn [convert all_gates with_sparse_oper flat_map map] in *. rewrite app_nil_r in B.
       rewrite HO by assumption. cbn [bind]. unfold Scale, list_of. rewrite iter_scale by assumption. reflexivity. }
  all: inversion N; subst; cbn [convert all_gates with_sparse_oper] in *;
    match goal with H : Forall simple_nesting ?x |- _ => rename H into NL; try rename x into l end;
    assert (E : mapM (convert b) l = Ok (map (with_sparse_oper b) l)) by
      (apply mapM_id; clear N; induction IH as [|x l Hx F IHl]; [apply Forall_nil|];
       inversion NL; subst; cbn [flat_map] in B; apply Forall_app in B; destruct B as [B1 B2]; apply Forall_cons; [apply Hx; assumption|apply IHl; assumption]);
    rewrite E; reflexivity.
Qed.
Lemma c62_flag_thm : forall b o, plain_nesting o -> Forall built_any (all_gates o) -> convert b o = Ok (with_sparse_oper b o).
Proof. intros b o N B; apply convert_ok; [apply plain_simple; exact N|exact B]. Qed.
Lemma with_sparse_built : forall b g, built_any g -> built_any (with_sparse b g).
Proof.
  intros b g [B|(name & t & c & ns & sp & ->)]; [left; destruct B|right; exists name, t, c, ns, b; reflexivity].
  - apply (bt_prim name t c ns b). - apply (bt_param name t c ns b). - apply (bt_phase name t c ns b).
Qed.
Lemma all_gates_sparse : forall b o, all_gates (with_sparse_oper b o) = map (with_sparse b) (all_gates o).
Proof.
  intro b; induction o as [g|l IH|l p IH|l IH|l IH|n l fp IH] using oper_ind'; cbn [all_gates with_sparse_oper]; try reflexivity;
    (induction IH as [|x l E F IHl]; [reflexivity|]); cbn [map flat_map]; rewrite map_app, E, IHl; reflexivity.
Qed.
Lemma simple_sparse : forall b o, simple_nesting o -> simple_nesting (with_sparse_oper b o).
Proof.
  intro b; induction o as [g|l IH|l p IH|l IH|l IH|n l fp IH] using oper_ind'; intro N; inversion N; subst; cbn [with_sparse_oper map].
  1: apply sn_gate.
  2: { pose proof (Forall_inv IH) as HO. apply sn_scale; [destruct o; simpl in *; tauto|auto]. }
  all: [> apply sn_seq | apply sn_add | apply sn_obs | apply sn_circuit]; apply Forall_map; rewrite Forall_forall in *; auto.
Qed.
Lemma sparse_sparse : forall b c o, with_sparse_oper b (with_sparse_oper c o) = with_sparse_oper b o.
Proof.
  intros b c; induction o as [g|l IH|l p IH|l IH|l IH|n l fp IH] using oper_ind'; cbn [with_sparse_oper]; f_equal; try reflexivity; rewrite map_map;
    apply map_ext_in; rewrite Forall_forall in IH; auto.
Qed.
Lemma dense_fixed : forall o, Forall dense_gate (all_gates o) -> with_sparse_oper false o = o.
Proof.
  induction o as [g|l IH|l p IH|l IH|l IH|n l fp IH] using oper_ind'; intro D; cbn [with_sparse_oper all_gates] in *.
  1: { inversion D; subst. destruct g; unfold dense_gate, with_sparse in *; cbn in *; congruence. }
  all: f_equal; rewrite <- (map_id l) at 2; apply map_ext_in; intros x I; rewrite Forall_forall in IH; apply IH; [exact I|];
    rewrite Forall_forall in *; intros g Ig; apply D, in_flat_map; exists x; split; assumption.
Qed.
Lemma roundtrip_convert : forall o, simple_nesting o -> Forall built_any (all_gates o) -> Forall dense_gate (all_gates o) ->
    exists o', to_sparse o = Ok o' /\ to_dense o' = Ok o.
Proof.
  intros o N B D. exists (with_sparse_oper true o). unfold to_sparse, to_dense. split; [apply convert_ok; assumption|].
  rewrite convert_ok; [f_equal; rewrite sparse_sparse; apply dense_fixed; exact D|apply simple_sparse; exact N|].
  rewrite all_gates_sparse. apply Forall_map. rewrite Forall_forall in *. intros g I; apply with_sparse_built, B, I.
Qed.
Lemma c62_roundtrip_thm : forall o, plain_nesting o -> Forall built_any (all_gates o) -> Forall dense_gate (all_gates o) ->
    exists o', to_sparse o = Ok o' /\ to_dense o' = Ok o.
Proof. intros o N; apply roundtrip_convert, plain_simple, N. Qed.
Lemma c63_partial_thm : forall b o, simple_nesting o -> Forall built_any (all_gates o) -> convert b o = Ok (with_sparse_oper b o).
Proof. exact convert_ok. Qed.
Lemma c63_refuted_thm :
    (forall b g1 g2 l p, built_any g1 -> exists o, convert b (Scale (AOp (OSeq (OGate g1 :: OGate g2 :: l))) p) = Ok o /\ all_gates o = [with_sparse b g1]) /\
    (forall b n l fp, Forall (fun g => exists h, g = OGate h /\ built_any h) l -> convert b (OQC n l fp) = Ok (OQC n (map (with_sparse_oper b) l) [])).
Proof.
  split.
  - intros b g1 g2 l p B. exists (OScale [OGate (with_sparse b g1)] p). split; [|reflexivity]. cbn [Scale list_of iter flat_map flatten app convert].
    unfold Scale, list_of, iter. cbn [flat_map flatten app convert]. rewrite gate_convert_ok by exact B. reflexivity.
  - intros b n l fp F. cbn [convert].
    assert (E : mapM (convert b) l = Ok (map (with_sparse_oper b) l)).
    { apply mapM_id. rewrite Forall_forall in *. intros x I. destruct (F x I) as (h & -> & B). cbn [convert]. rewrite gate_convert_ok by exact B. reflexivity. }
    rewrite E. reflexivity.
Qed.

(** ** C64, C65 *)
Lemma flatten_gates : forall o, flatten o = map OGate (all_gates o).
Proof.
  induction o as [g|l IH|l p IH|l IH|l IH|n l fp IH] using oper_ind'; cbn [flatten all_gates]; try reflexivity;
    (induction IH as [|x l E F IHl]; [reflexivity|]); cbn [flat_map]; rewrite map_app, E, IHl; reflexivity.
Qed.
Lemma iter_gates : forall o, (forall l p, o <> OScale l p) -> iter o = map OGate (all_gates o).
Proof. intros o N; rewrite <- flatten_gates; destruct o; try reflexivity. exfalso; eapply N; reflexivity. Qed.
Lemma dedup_str_in : forall s l, In s (dedup_str l) <-> In s l.
Proof.
  intros s l; induction l as [|x l IH]; [reflexivity|]. cbn [dedup_str]. destruct (existsb (String.eqb x) l) eqn:E.
  - rewrite IH. split; [right; assumption|]. intros [->|I]; [|exact I]. apply existsb_exists in E. destruct E as (y & Iy & Q). apply String.eqb_eq in Q. congruence.
  - simpl. rewrite IH. reflexivity.
Qed.
Lemma dedup_str_nodup : forall l, NoDup (dedup_str l).
Proof.
  induction l as [|x l IH]; [constructor|]. cbn [dedup_str]. destruct (existsb (String.eqb x) l) eqn:E; [exact IH|]. constructor; [|exact IH].
  rewrite dedup_str_in. intro I. assert (T : existsb (String.eqb x) l = true) by (apply existsb_exists; exists x; split; [exact I|apply String.eqb_refl]). congruence.
Qed.
Lemma param_names_in : forall str_of o s, (forall l p, o <> OScale l p) -> all_named o ->
    In s (param_names str_of o) <-> exists g, In g (all_gates o) /\ has_name s g.
Proof.
  intros str_of o s N A. unfold param_names. rewrite dedup_str_in, iter_gates by exact N. rewrite in_flat_map. split.
  - intros (x & I & P). apply in_map_iff in I. destruct I as (g & <- & I). exists g; split; [exact I|]. cbn [gate_param_str] in P.
    assert (Q : parametric g) by (destruct (gclass g) eqn:K; try contradiction; [left|right]; exact K).
    destruct (A g I Q) as (s' & E). rewrite E in P. split; [exact Q|]. destruct (gclass g); try contradiction; destruct P as [<-|[]]; exact E.
  - intros (g & I & [Q E]). exists (OGate g). split; [apply in_map; exact I|]. cbn [gate_param_str]. rewrite E. destruct Q as [-> | ->]; left; reflexivity.
Qed.
Lemma c64_thm : forall str_of n l fp, all_named (OQC n l fp) ->
    (forall s, In s (vparams str_of (OQC n l fp)) <-> (exists g, In g (all_gates (OQC n l fp)) /\ has_name s g) /\ ~ In s fp) /\
    NoDup (vparams str_of (OQC n l fp)) /\ n_vparams str_of (OQC n l fp) = List.length (vparams str_of (OQC n l fp)).
Proof.
  intros str_of n l fp A. split; [|split; [apply NoDup_filter, dedup_str_nodup|reflexivity]].
  intro s. cbn [vparams]. rewrite filter_In, param_names_in by (discriminate || exact A). apply and_iff_compat_l.
  rewrite negb_true_iff. split.
  - intros E I. assert (T : existsb (String.eqb s) fp = true) by (apply existsb_exists; exists s; split; [exact I|apply String.eqb_refl]). congruence.
  - intro I. destruct (existsb (String.eqb s) fp) eqn:E; [|reflexivity]. apply existsb_exists in E. destruct E as (y & Iy & Q). apply String.eqb_eq in Q. subst; contradiction.
Qed.
(** sequences, sums and observables have no feature parameters *)
Lemma c64_seq_thm : forall str_of o, plain_nesting o -> all_named o ->
    (forall s, In s (param_names str_of o) <-> exists g, In g (all_gates o) /\ has_name s g) /\
    NoDup (param_names str_of o) /\ n_vparams str_of o = List.length (param_names str_of o).
Proof.
  intros str_of o N A. split; [|split; [apply dedup_str_nodup|destruct N; reflexivity]].
  intro s. apply param_names_in; [|exact A]. intros l p E; subst; inversion N.
Qed.
Lemma c65_refuted_thm : forall str_of n g x, parametric g -> gparam g = PNum x ->
    In (str_of x) (vparams str_of (OQC n [OGate g] [])) /\ n_vparams str_of (OQC n [OGate g] []) = 1.
Proof.
  intros str_of n g x P E. unfold n_vparams, vparams, param_names. cbn [iter flat_map flatten app gate_param_str]. rewrite E.
  destruct P as [-> | ->]; cbn; auto.
Qed.
(** what holds of circuits with numeric angles: the names are kept, and each numeric angle adds the name [str(angle)] *)
Lemma c65_partial_thm : forall str_of n l fp s,
    In s (vparams str_of (OQC n l fp)) <->
    (exists g, In g (all_gates (OQC n l fp)) /\ parametric g /\ (gparam g = PName s \/ exists x, gparam g = PNum x /\ s = str_of x)) /\ ~ In s fp.
Proof.
  intros str_of n l fp s. cbn [vparams]. rewrite filter_In. unfold param_names. rewrite dedup_str_in, iter_gates by discriminate. rewrite in_flat_map.
  assert (X : (negb (existsb (String.eqb s) fp) = true) <-> ~ In s fp).
  { rewrite negb_true_iff. split.
    - intros E I. assert (T : existsb (String.eqb s) fp = true) by (apply existsb_exists; exists s; split; [exact I|apply String.eqb_refl]). congruence.
    - intro I. destruct (existsb (String.eqb s) fp) eqn:E; [|reflexivity]. apply existsb_exists in E. destruct E as (y & Iy & Q). apply String.eqb_eq in Q. subst; contradiction. }
  rewrite X. apply and_iff_compat_r. split.
  - intros (x & I & P). apply in_map_iff in I. destruct I as (g & <- & I). exists g; split; [exact I|]. cbn [gate_param_str] in P.
    assert (Q : parametric g) by (destruct (gclass g) eqn:K; try contradiction; [left|right]; exact K). split; [exact Q|].
    destruct (gclass g); try contradiction; destruct P as [<-|[]]; destruct (gparam g); eauto.
  - intros (g & I & Q & E). exists (OGate g). split; [apply in_map; exact I|]. cbn [gate_param_str].
    destruct E as [-> | (x & -> & ->)]; destruct Q as [-> | ->]; left; reflexivity.
Qed.
