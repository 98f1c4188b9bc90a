(** * Locality: only the gates in the light cone of an observable matter *)
From Coq Require Import String List Arith Bool Reals Lia Lra ZArith.
From Verif Require Import Cplx Py PyFacts Ndarray OperatorUtils Sparse Matrices Noise Gates Apply Composite Conversion Shots Gpsr Api
  Spec SpecFacts Deriv GateSpec PropSpec NoiseSpec SampleSpec ExpectSpec GpsrSpec GateFacts CircuitFacts AlgebraFacts ApplyThm GateThm TensorFacts TensorThm
  KrausThm NoiseThm NoiseThm2 SeqThm SampleThm ShotsSpec ShotsThm ExpectThm ExpectThm2 GpsrFacts GpsrThm StructSpec PhysSpec PhysThm.
Import ListNotations.
Local Open Scope nat_scope.

(** [K] commutes with everything outside [S] *)
Definition local_to (n : nat) (S : nat -> Prop) (K : op) : Prop :=
  forall B cs ts, valid_qubits n (cs ++ ts) -> (forall q, In q (cs ++ ts) -> ~ S q) ->
    keq n (kmul n K (ctrl_kernel B cs ts)) (kmul n (ctrl_kernel B cs ts) K).
Lemma local_ext : forall n S K L, keq n K L -> local_to n S L -> local_to n S K.
Proof. intros n S K L E H B cs ts V D. rewrite E. apply H; assumption. Qed.
Lemma local_mono : forall n (S T : nat -> Prop) K, (forall q, S q -> T q) -> local_to n S K -> local_to n T K.
Proof. intros n S T K I H B cs ts V D. apply H; [exact V|]. intros q Q HS. apply (D q Q), I, HS. Qed.
Lemma valid_join : forall n l l', valid_qubits n l -> valid_qubits n l' -> (forall q, In q l -> ~ In q l') -> valid_qubits n (l ++ l').
Proof.
  intros n l l' [N1 F1] [N2 F2] D. split; [|apply Forall_app; auto]. induction N1 as [|a l Na N1 IH]; [exact N2|].
  inversion F1 as [|? ? A1 A2]; subst. cbn [app]. apply NoDup_cons.
  - intro I. apply in_app_or in I as [I|I]; [exact (Na I)|]. exact (D a (or_introl eq_refl) I).
  - apply IH; [exact A2|]. intros q Q; apply D; right; exact Q.
Qed.
Lemma local_kernel : forall n (S : nat -> Prop) M cs ts, valid_qubits n (cs ++ ts) -> (forall q, In q (cs ++ ts) -> S q) -> local_to n S (ctrl_kernel M cs ts).
Proof. intros n S M cs ts V I B cs' ts' V' D. apply ctrl_kernel_comm. apply valid_join; auto. intros q Q Q'. exact (D q Q' (I q Q)). Qed.
Lemma local_mul : forall n S K L, local_to n S K -> local_to n S L -> local_to n S (kmul n K L).
Proof.
  intros n S K L HK HL B cs ts V D. rewrite kmul_assoc, (HL B cs ts V D), <- kmul_assoc, (HK B cs ts V D), kmul_assoc. apply keq_refl.
Qed.
Lemma local_add : forall n S K L, local_to n S K -> local_to n S L -> local_to n S (kadd K L).
Proof. intros n S K L HK HL B cs ts V D. rewrite kmul_kadd_l, kmul_kadd_r. apply kadd_ext; auto. Qed.
Lemma local_scale : forall n S c K, local_to n S K -> local_to n S (kscale c K).
Proof.
  intros n S c K HK B cs ts V D. rewrite kmul_kscale_l, kmul_kscale_r. intros x y Hx Hy. unfold kscale. rewrite (HK B cs ts V D x y Hx Hy). reflexivity.
Qed.
Lemma local_id : forall n S, local_to n S kid.
Proof. intros n S B cs ts V D. rewrite kmul_id_l, kmul_id_r. apply keq_refl. Qed.
Lemma local_zero : forall n S, local_to n S kzero.
Proof. intros n S B cs ts V D. rewrite kmul_zero_l, kmul_zero_r. apply keq_refl. Qed.
Lemma local_sum : forall n S Ks, Forall (local_to n S) Ks -> local_to n S (ksum Ks).
Proof. intros n S Ks F; induction F as [|K Ks H F IH]; [apply local_zero|]. apply (local_add n S K (ksum Ks)); assumption. Qed.
Lemma local_prod : forall n S Ks, Forall (local_to n S) Ks -> local_to n S (kprod n Ks).
Proof. intros n S Ks F; induction F as [|K Ks H F IH]; [apply local_id|]. cbn [kprod]. apply local_mul; assumption. Qed.
Lemma local_list : forall n (S : nat -> Prop) l Ks, (forall q, (exists o g, In o l /\ In g (all_gates o) /\ occupies g q) -> S q) ->
    Forall2 (fun o K => local_to n (fun q => exists g, In g (all_gates o) /\ occupies g q) K) l Ks -> Forall (local_to n S) Ks.
Proof.
  intros n S l Ks I F. induction F as [|o K l Ks H F IH]; constructor.
  - eapply local_mono; [|exact H]. intros q (g & Ig & Q). apply I. exists o, g. split; [left; reflexivity|auto].
  - apply IH. intros q (o' & g & Io & Ig & Q). apply I. exists o', g. split; [right; exact Io|auto].
Qed.
Lemma denotes_local : forall w n vals sq o K, denotes w n vals sq o K -> local_to n (fun q => exists g, In g (all_gates o) /\ occupies g q) K.
Proof.
  intros w n vals sq. apply denotes_induction.
  - intros g M cs ts [GM GC GT GV] _ _. apply local_kernel; [exact GV|]. intros q Q. exists g. split; [left; reflexivity|]. exists cs. rewrite GT. auto.
  - intros g K (u & cs & _ & _ & GC & GV & _ & ->) _. apply local_kernel; [exact GV|]. intros q Q. exists g. split; [left; reflexivity|]. exists cs. auto.
  - intros l Ks NE F. apply local_sum. eapply local_list; [|exact F]. intros q (o & g & Io & Ig & Q). exists g. split; [|exact Q].
    cbn [all_gates]. apply in_flat_map. eauto.
  - intros o K p c H E. apply local_scale. eapply local_mono; [|exact H]. intros q (g & Ig & Q). exists g. split; [|exact Q]. cbn [all_gates flat_map].
    rewrite app_nil_r. exact Ig.
  - intros l Ks p c _ F _. apply local_scale, local_prod. eapply local_list; [|exact F]. intros q (o & g & Io & Ig & Q). exists g. split; [|exact Q]. cbn [all_gates]. apply in_flat_map. eauto.
  - intros l Ks _ F. apply local_prod. eapply local_list; [|exact F]. intros q (o & g & Io & Ig & Q). exists g. split; [|exact Q]. cbn [all_gates]. apply in_flat_map. eauto.
  - intros m l fp Ks _ F. apply local_prod. eapply local_list; [|exact F]. intros q (o & g & Io & Ig & Q). exists g. split; [|exact Q]. cbn [all_gates]. apply in_flat_map. eauto.
Qed.
Lemma observable_local : forall w n vals sq l K, observable_on w n vals sq l K -> local_to n (measures l) K.
Proof.
  intros w n vals sq l K (Ks & NE & F & ->). apply local_sum. eapply local_list; [|eapply F2_impl; [|exact F]].
  - intros q H; exact H.
  - intros o K. apply denotes_local.
Qed.

(** ** dropping *)
Lemma sandwich_local : forall n S K B cs ts r, local_to n S K -> valid_qubits n (cs ++ ts) -> (forall q, In q (cs ++ ts) -> ~ S q) ->
    keq n (kmul n K (sandwiched n (ctrl_kernel B cs ts) r)) (sandwiched n (ctrl_kernel B cs ts) (kmul n K r)).
Proof.
  intros n S K B cs ts r H V D. unfold sandwiched. rewrite <- kmul_assoc, <- kmul_assoc, (H B cs ts V D), kmul_assoc, !kmul_assoc. apply keq_refl.
Qed.
Lemma kraus_local : forall n (S : nat -> Prop) K q ks r, local_to n S K -> q < n -> ~ S q -> keq n (kmul n K (kraus_sum n q ks r)) (kraus_sum n q ks (kmul n K r)).
Proof.
  intros n S K q ks r H Hq D. unfold kraus_sum. induction ks as [|k ks IH]; [apply kmul_zero_r|]. cbn [map ksum].
  change (keq n (kmul n K (kadd (sandwiched n (ctrl_kernel (entry k) [] [q]) r) (ksum (map (fun K => sandwiched n (ctrl_kernel (entry K) [] [q]) r) ks))))
    (kadd (sandwiched n (ctrl_kernel (entry k) [] [q]) (kmul n K r)) (ksum (map (fun K0 => sandwiched n (ctrl_kernel (entry K0) [] [q]) (kmul n K r)) ks)))).
  rewrite kmul_kadd_r. apply kadd_ext; [|exact IH]. apply (sandwich_local n S); [exact H| |].
  - split; [repeat constructor; simpl; tauto|repeat constructor; exact Hq].
  - cbn [app]. intros x [<-|[]]; exact D.
Qed.
Lemma channels_local : forall n (S : nat -> Prop) K q l r, local_to n S K -> q < n -> ~ S q ->
    keq n (kmul n K (channels n [q] (Some l) r)) (channels n [q] (Some l) (kmul n K r)).
Proof.
  intros n S K q l r H Hq D. cbn [channels hd]. revert r. induction l as [|i l IH]; intro r; [apply keq_refl|]. cbn [fold_left].
  eapply keq_trans; [apply IH|]. change (keq n (channels n [q] (Some l) (kmul n K (kraus_sum n q (kraus_of i) r))) (channels n [q] (Some l) (kraus_sum n q (kraus_of i) (kmul n K r)))).
  apply (linear_channels n [q] (Some l)). apply (kraus_local n S); assumption.
Qed.
Lemma step_form : forall n vals g, usable n vals g -> noise_ok g -> exists M cs ts, gate_on n vals g M cs ts /\ (forall q, In q (cs ++ ts) <-> occupies g q) /\
    ((noise g = None /\ forall r, step n vals g r = sandwiched n (gate_op M cs ts) r) \/
     exists q l, noise g = Some l /\ ts = [q] /\ q < n /\ Forall (fun i => well_typed i /\ valid_parameter i) l /\
       forall r, step n vals g r = channels n [q] (Some l) (sandwiched n (gate_op M cs ts) r)).
Proof.
  intros n vals g (M & cs & ts & HG) HN. exists M, cs, ts. split; [exact HG|]. split.
  - destruct HG as [GM GC GT GV]. intro q; split; [intro Q; exists cs; rewrite GT; auto|]. intros (cs' & C' & Q). rewrite GT in Q.
    rewrite <- (ctrl_of_spec _ _ GC), (ctrl_of_spec _ _ C'). exact Q.
  - pose proof (ctrl_of_spec _ _ (go_control _ _ _ _ _ _ HG)) as EC. pose proof (mat_of_spec _ _ _ (go_matrix _ _ _ _ _ _ HG)) as EM.
    pose proof (go_target _ _ _ _ _ _ HG) as ET. unfold noise_ok in HN. unfold step. rewrite EC, EM, ET in *. destruct (noise g) as [l|]; [right|left; auto].
    destruct HN as [L FL]. destruct ts as [|q [|? ?]]; try discriminate. exists q, l. do 2 (split; [reflexivity|]).
    split; [|split; [exact FL|reflexivity]]. pose proof (go_qubits _ _ _ _ _ _ HG) as [_ V]. apply Forall_app in V as [_ V]. inversion V; assumption.
Qed.
Lemma channels_trace : forall n q l r, q < n -> Forall (fun i => well_typed i /\ valid_parameter i) l -> ktrace n (channels n [q] (Some l) r) = ktrace n r.
Proof.
  intros n q l r Hq F. cbn [channels hd]. revert r. induction F as [|i l [T V] F IH]; intro r; [reflexivity|]. cbn [fold_left]. rewrite IH.
  destruct (c26_valid i T V) as (ks & E & _). unfold kraus_of. rewrite E. apply (kraus_sum_trace n q i ks r E Hq).
Qed.
Lemma sandwich_trace : forall n U r, unitary n U -> ktrace n (sandwiched n U r) = ktrace n r.
Proof.
  intros n U r [U1 _]. unfold sandwiched. rewrite ktrace_cyclic. apply ktrace_ext. rewrite <- kmul_assoc, U1. apply kmul_id_l.
Qed.
Lemma step_trace : forall n vals g r, usable n vals g -> noise_ok g -> ktrace n (step n vals g r) = ktrace n r.
Proof.
  intros n vals g r HU HN. destruct (step_form n vals g HU HN) as (M & cs & ts & HG & _ & [(_ & E)|(q & l & _ & _ & Hq & F & E)]); rewrite E.
  - apply sandwich_trace, (gate_op_unitary _ _ _ _ _ _ HG).
  - rewrite channels_trace by assumption. apply sandwich_trace, (gate_op_unitary _ _ _ _ _ _ HG).
Qed.
Lemma drop_step : forall n vals (S : nat -> Prop) g K r, usable n vals g -> noise_ok g -> local_to n S K -> (forall q, occupies g q -> ~ S q) ->
    ktrace n (kmul n K (step n vals g r)) = ktrace n (kmul n K r).
Proof.
  intros n vals S g K r HU HN HK D. rewrite <- (step_trace n vals g (kmul n K r) HU HN). apply ktrace_ext.
  destruct (step_form n vals g HU HN) as (M & cs & ts & HG & O & [(_ & E)|(q & l & _ & ET & Hq & F & E)]); rewrite !E.
  - apply (sandwich_local n S); [exact HK|apply (go_qubits _ _ _ _ _ _ HG)|]. intros q Q. apply D, O, Q.
  - rewrite (channels_local n S K q l _ HK Hq); [|apply D, O; rewrite ET; apply in_or_app; right; left; reflexivity].
    apply (linear_channels n [q] (Some l)). apply (sandwich_local n S); [exact HK|apply (go_qubits _ _ _ _ _ _ HG)|]. intros x Q. apply D, O, Q.
Qed.
(** ** keeping: the observable pulled back through a gate *)
Lemma pull_sandwich : forall n (S T : nat -> Prop) B cs ts K, valid_qubits n (cs ++ ts) -> (forall q, S q -> T q) -> (forall q, In q (cs ++ ts) -> T q) -> local_to n S K ->
    exists K', local_to n T K' /\ forall r, ktrace n (kmul n K (sandwiched n (ctrl_kernel B cs ts) r)) = ktrace n (kmul n K' r).
Proof.
  intros n S T B cs ts K V I I' HK. exists (kmul n (kmul n (kadj (ctrl_kernel B cs ts)) K) (ctrl_kernel B cs ts)). split.
  - apply local_mul; [apply local_mul|].
    + eapply local_ext; [apply ctrl_kernel_adj, V|]. apply local_kernel; assumption.
    + eapply local_mono; [exact I|exact HK].
    + apply local_kernel; assumption.
  - intro r. unfold sandwiched. rewrite (ktrace_ext n _ (kmul n (kmul n K (kmul n (ctrl_kernel B cs ts) r)) (kadj (ctrl_kernel B cs ts)))) by (symmetry; apply kmul_assoc).
    rewrite ktrace_cyclic. apply ktrace_ext. rewrite !kmul_assoc. apply keq_refl.
Qed.
Lemma pull_sum : forall {A} n (T : nat -> Prop) K (f : A -> op -> op) l, (forall a, exists K', local_to n T K' /\ forall r, ktrace n (kmul n K (f a r)) = ktrace n (kmul n K' r)) ->
    exists K', local_to n T K' /\ forall r, ktrace n (kmul n K (ksum (map (fun a => f a r) l))) = ktrace n (kmul n K' r).
Proof.
  intros A n T K f l H. induction l as [|a l (K2 & L2 & E2)].
  - exists kzero. split; [apply local_zero|]. intro r. cbn [map ksum]. apply ktrace_ext. rewrite kmul_zero_l. apply kmul_zero_r.
  - destruct (H a) as (K1 & L1 & E1). exists (kadd K1 K2). split; [apply local_add; assumption|]. intro r. cbn [map ksum].
    rewrite (ktrace_ext n _ (kadd (kmul n K (f a r)) (kmul n K (ksum (map (fun a => f a r) l))))) by (apply (kmul_kadd_r n (f a r) (ksum (map (fun a => f a r) l)) K)).
    rewrite ktrace_add, E1, E2, <- ktrace_add. apply ktrace_ext. apply keq_sym, kmul_kadd_l.
Qed.
Lemma pull_channels : forall n (T : nat -> Prop) q l K, q < n -> T q -> local_to n T K ->
    exists K', local_to n T K' /\ forall r, ktrace n (kmul n K (channels n [q] (Some l) r)) = ktrace n (kmul n K' r).
Proof.
  intros n T q l K Hq HT HK. cbn [channels hd]. induction l as [|i l (K1 & L1 & E1)]; [exists K; auto|].
  destruct (pull_sum n T K1 (fun k r => sandwiched n (ctrl_kernel (entry k) [] [q]) r) (kraus_of i)) as (K2 & L2 & E2).
  - intro k. apply (pull_sandwich n T T); auto.
    + split; [repeat constructor; simpl; tauto|repeat constructor; exact Hq].
    + cbn [app]. intros x [<-|[]]; exact HT.
  - exists K2. split; [exact L2|]. intro r. cbn [fold_left]. rewrite E1. apply E2.
Qed.
Lemma keep_step : forall n vals (S : nat -> Prop) g K, usable n vals g -> noise_ok g -> local_to n S K ->
    exists K', local_to n (fun q => S q \/ occupies g q) K' /\ forall r, ktrace n (kmul n K (step n vals g r)) = ktrace n (kmul n K' r).
Proof.
  intros n vals S g K HU HN HK. set (T := fun q => S q \/ occupies g q).
  destruct (step_form n vals g HU HN) as (M & cs & ts & HG & O & [(_ & E)|(q & l & _ & ET & Hq & F & E)]).
  - destruct (pull_sandwich n S T M cs ts K) as (K' & L & H); auto; try (intros; unfold T; auto; fail).
    + apply (go_qubits _ _ _ _ _ _ HG).
    + intros q Q. right. apply O, Q.
    + exists K'. split; [exact L|]. intro r. rewrite E. apply H.
  - destruct (pull_channels n T q l K Hq) as (K1 & L1 & H1).
    + right. apply O. rewrite ET. apply in_or_app; right; left; reflexivity.
    + eapply local_mono; [|exact HK]. intros; left; assumption.
    + destruct (pull_sandwich n T T M cs ts K1) as (K' & L & H); auto.
      * apply (go_qubits _ _ _ _ _ _ HG).
      * intros x Q. right. apply O, Q.
      * exists K'. split; [exact L|]. intro r. rewrite E, H1. apply H.
Qed.
Lemma cone_trace : forall n vals S gs gs', light_cone S gs gs' -> Forall (usable n vals) gs -> Forall noise_ok gs -> forall K r, local_to n S K ->
    ktrace n (kmul n K (evolve n vals gs r)) = ktrace n (kmul n K (evolve n vals gs' r)).
Proof.
  intros n vals S gs gs' H. induction H as [S|S gs gs' g H IH|S gs gs' g D H IH]; intros FU FN K r HK; [reflexivity| |];
    apply Forall_app in FU as [FU F1]; apply Forall_app in FN as [FN F2]; inversion F1 as [|? ? HU _]; inversion F2 as [|? ? HN _]; subst;
    rewrite evolve_app; cbn [evolve].
  - destruct (keep_step n vals S g K HU HN HK) as (K' & L & E). rewrite evolve_app. cbn [evolve]. rewrite !E. apply IH; assumption.
  - rewrite (drop_step n vals S g K _ HU HN HK D). apply IH; assumption.
Qed.
Lemma mixes_cone : forall S gs gs' st, light_cone S gs gs' -> mixes st gs' -> mixes st gs.
Proof.
  intros S gs gs' st H [X|(g & I & N)]; [left; exact X|]. right. exists g. split; [|exact N].
  induction H as [S|S gs gs' g' H IH|S gs gs' g' D H IH]; [exact I| |].
  - apply in_app_or in I as [I|I]; apply in_or_app; auto.
  - apply in_or_app; left; auto.
Qed.
Lemma c81_light_cone : forall w n vals c c' gs gs' st l K mode key, set_order (set_iter w) -> flat_values vals ->
    runnable n vals c gs -> runnable n vals c' gs' -> state_of n st -> readable w n vals st gs l K -> light_cone (measures l) gs gs' -> exact_mode mode ->
    exists e, expectation w st c [l] vals mode 0 key = Ok [e] /\ expectation w st c' [l] vals mode 0 key = Ok [e].
Proof.
  intros w n vals c c' gs gs' st l K mode key SO FV RN RN' HT HR HC EM.
  exists (mean_density n K (evolve n vals gs (density_of st))). split.
  - apply (exact_spec w n vals c gs st [l] [K]); auto; discriminate.
  - rewrite (exact_spec w n vals c' gs' st [l] [K] mode key); auto; [|discriminate|constructor; [|constructor]].
    + cbn [map]. do 2 f_equal. unfold mean_density. f_equal. symmetry. destruct RN as (_ & _ & FU & _ & FN). apply (cone_trace n vals (measures l)); auto.
      destruct HR as [(sq & H) _]. apply (observable_local w n vals sq l K H).
    + eapply readable_less; [|exact HR]. apply (mixes_cone _ _ _ _ HC).
Qed.
