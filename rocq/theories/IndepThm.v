(** * Registers that never interact are independent (C117) *)
From Coq Require Import String List Arith Bool Reals Lia Lra ZArith.
From Verif Require Import Cplx Py PyFacts Ndarray OperatorUtils Sparse Matrices Noise Gates Apply Composite Conversion Shots Gpsr Api
  Spec SpecFacts Deriv GateSpec PropSpec NoiseSpec SampleSpec ExpectSpec GpsrSpec GateFacts CircuitFacts AlgebraFacts ApplyThm GateThm TensorFacts TensorThm
  KrausThm NoiseThm NoiseThm2 SeqThm SampleThm ShotsSpec ShotsThm ExpectThm ExpectThm2 GpsrFacts GpsrThm StructSpec StructThm3 PhysSpec PhysThm PhysThm2 PhysThm3 CtorSpec PauliSpec HeisSpec HeisThm IndepSpec.
Import ListNotations.
Local Open Scope nat_scope.

Definition off (S : nat -> Prop) : nat -> Prop := fun q => ~ S q.
Definition pull_left (n : nat) (S : nat -> Prop) (F : op -> op) (A A' : op) : Prop :=
  local_to n S A' /\ forall B, local_to n (off S) B -> forall r, ktrace n (kmul n A (kmul n B (F r))) = ktrace n (kmul n A' (kmul n B r)).
Definition pull_right (n : nat) (S : nat -> Prop) (F : op -> op) (B B' : op) : Prop :=
  local_to n (off S) B' /\ forall A, local_to n S A -> forall r, ktrace n (kmul n A (kmul n B (F r))) = ktrace n (kmul n A (kmul n B' r)).

Lemma left_sandwich : forall n (S : nat -> Prop) M cs ts A, valid_qubits n (cs ++ ts) -> (forall q, In q (cs ++ ts) -> S q) -> local_to n S A ->
    exists A', pull_left n S (sandwiched n (ctrl_kernel M cs ts)) A A'.
Proof.
  intros n S M cs ts A V I HA. set (G := ctrl_kernel M cs ts). exists (kmul n (kmul n (kadj G) A) G). split.
  - apply local_mul; [apply local_mul|].
    + eapply local_ext; [apply ctrl_kernel_adj, V|]. apply local_kernel; assumption.
    + exact HA.
    + apply local_kernel; assumption.
  - intros B HB r. unfold sandwiched. assert (C : keq n (kmul n B G) (kmul n G B)) by (apply HB; [exact V|intros q Q N; exact (N (I q Q))]).
    transitivity (ktrace n (kmul n (kmul n A (kmul n B (kmul n G r))) (kadj G))); [apply ktrace_ext; rewrite !kmul_assoc; apply keq_refl|].
    rewrite ktrace_cyclic. apply ktrace_ext. eapply keq_trans; [|apply keq_sym; rewrite !kmul_assoc; apply keq_refl].
    apply kmul_ext; [apply keq_refl|]. apply kmul_ext; [apply keq_refl|]. rewrite <- !kmul_assoc. apply kmul_ext; [exact C|apply keq_refl].
Qed.
Lemma right_sandwich : forall n (S : nat -> Prop) M cs ts B, valid_qubits n (cs ++ ts) -> (forall q, In q (cs ++ ts) -> ~ S q) -> local_to n (off S) B ->
    exists B', pull_right n S (sandwiched n (ctrl_kernel M cs ts)) B B'.
Proof.
  intros n S M cs ts B V I HB. set (G := ctrl_kernel M cs ts). exists (kmul n (kmul n (kadj G) B) G). split.
  - apply local_mul; [apply local_mul|].
    + eapply local_ext; [apply ctrl_kernel_adj, V|]. apply local_kernel; assumption.
    + exact HB.
    + apply local_kernel; assumption.
  - intros A HA r. unfold sandwiched. assert (C : keq n (kmul n A (kadj G)) (kmul n (kadj G) A)).
    { pose proof (ctrl_kernel_adj n M cs ts V) as W. eapply keq_trans; [apply kmul_ext; [apply keq_refl|exact W]|]. eapply keq_trans; [apply HA; [exact V|exact I]|].
      apply keq_sym, kmul_ext; [exact W|apply keq_refl]. }
    transitivity (ktrace n (kmul n (kmul n A (kmul n B (kmul n G r))) (kadj G))); [apply ktrace_ext; rewrite !kmul_assoc; apply keq_refl|].
    rewrite ktrace_cyclic. apply ktrace_ext. rewrite <- kmul_assoc. eapply keq_trans; [apply kmul_ext; [apply keq_sym; exact C|apply keq_refl]|]. rewrite !kmul_assoc. apply keq_refl.
Qed.
Lemma left_sum : forall {X} n S (f : X -> op -> op) A l, (forall a, exists A', pull_left n S (f a) A A') -> exists A', pull_left n S (fun r => ksum (map (fun a => f a r) l)) A A'.
Proof.
  intros X n S f A l H. induction l as [|a l (K2 & L2 & E2)].
  - exists kzero. split; [apply local_zero|]. intros B _ r. cbn [map ksum]. apply ktrace_ext. eapply keq_trans; [apply kmul_ext; [apply keq_refl|apply kmul_zero_r]|].
    eapply keq_trans; [apply kmul_zero_r|]. apply keq_sym, kmul_zero_l.
  - destruct (H a) as (K1 & L1 & E1). exists (kadd K1 K2). split; [apply local_add; assumption|]. intros B HB r. cbn [map ksum].
    rewrite (ktrace_ext n _ (kadd (kmul n A (kmul n B (f a r))) (kmul n A (kmul n B (ksum (map (fun a => f a r) l)))))).
    + rewrite ktrace_add, (E1 B HB), (E2 B HB), <- ktrace_add. apply ktrace_ext. apply keq_sym, kmul_kadd_l.
    + eapply keq_trans; [apply kmul_ext; [apply keq_refl|apply (kmul_kadd_r n (f a r) (ksum (map (fun a => f a r) l)) B)]|]. apply kmul_kadd_r.
Qed.
Lemma right_sum : forall {X} n S (f : X -> op -> op) B l, (forall a, exists B', pull_right n S (f a) B B') -> exists B', pull_right n S (fun r => ksum (map (fun a => f a r) l)) B B'.
Proof.
  intros X n S f B l H. induction l as [|a l (K2 & L2 & E2)].
  - exists kzero. split; [apply local_zero|]. intros A _ r. cbn [map ksum]. apply ktrace_ext. eapply keq_trans; [apply kmul_ext; [apply keq_refl|apply kmul_zero_r]|].
    apply kmul_ext; [apply keq_refl|]. apply keq_sym, kmul_zero_l.
  - destruct (H a) as (K1 & L1 & E1). exists (kadd K1 K2). split; [apply local_add; assumption|]. intros A HA r. cbn [map ksum].
    rewrite (ktrace_ext n _ (kadd (kmul n A (kmul n B (f a r))) (kmul n A (kmul n B (ksum (map (fun a => f a r) l)))))).
    + rewrite ktrace_add, (E1 A HA), (E2 A HA), <- ktrace_add. apply ktrace_ext. eapply keq_trans; [apply keq_sym, kmul_kadd_r|]. apply kmul_ext; [apply keq_refl|]. apply keq_sym, kmul_kadd_l.
    + eapply keq_trans; [apply kmul_ext; [apply keq_refl|apply (kmul_kadd_r n (f a r) (ksum (map (fun a => f a r) l)) B)]|]. apply kmul_kadd_r.
Qed.
Lemma left_channels : forall n (S : nat -> Prop) q l A, q < n -> S q -> local_to n S A -> exists A', pull_left n S (channels n [q] (Some l)) A A'.
Proof.
  intros n S q l A Hq HS HA. induction l as [|i l (K1 & L1 & E1)]; [exists A; split; [exact HA|reflexivity]|].
  destruct (left_sum n S (fun k r => sandwiched n (ctrl_kernel (entry k) [] [q]) r) K1 (kraus_of i)) as (K2 & L2 & E2).
  - intro k. apply left_sandwich; [apply valid_one; exact Hq| |exact L1]. intros x [<-|[]]; exact HS.
  - exists K2. split; [exact L2|]. intros B HB r. rewrite <- (E2 B HB), <- (E1 B HB). reflexivity.
Qed.
Lemma right_channels : forall n (S : nat -> Prop) q l B, q < n -> ~ S q -> local_to n (off S) B -> exists B', pull_right n S (channels n [q] (Some l)) B B'.
Proof.
  intros n S q l A Hq HS HA. induction l as [|i l (K1 & L1 & E1)]; [exists A; split; [exact HA|reflexivity]|].
  destruct (right_sum n S (fun k r => sandwiched n (ctrl_kernel (entry k) [] [q]) r) K1 (kraus_of i)) as (K2 & L2 & E2).
  - intro k. apply right_sandwich; [apply valid_one; exact Hq| |exact L1]. intros x [<-|[]]; exact HS.
  - exists K2. split; [exact L2|]. intros B HB r. rewrite <- (E2 B HB), <- (E1 B HB). reflexivity.
Qed.
Lemma left_step : forall n vals (S : nat -> Prop) g A, usable n vals g -> noise_ok g -> (forall q, occupies g q -> S q) -> local_to n S A -> exists A', pull_left n S (step n vals g) A A'.
Proof.
  intros n vals S g A HU HN HS HA. destruct (step_form n vals g HU HN) as (M & cs & ts & HG & O & [(_ & E)|(q & l & _ & ET & Hq & F & E)]).
  - destruct (left_sandwich n S M cs ts A (go_qubits _ _ _ _ _ _ HG)) as (A' & L & H); [intros q Q; apply HS, O, Q|exact HA|]. exists A'. split; [exact L|]. intros B HB r. rewrite E. apply H; exact HB.
  - destruct (left_channels n S q l A Hq) as (A1 & L1 & H1); [apply HS, O; rewrite ET; apply in_or_app; right; left; reflexivity|exact HA|].
    destruct (left_sandwich n S M cs ts A1 (go_qubits _ _ _ _ _ _ HG)) as (A' & L & H); [intros x Q; apply HS, O, Q|exact L1|].
    exists A'. split; [exact L|]. intros B HB r. rewrite E, (H1 B HB). apply H; exact HB.
Qed.
Lemma right_step : forall n vals (S : nat -> Prop) g B, usable n vals g -> noise_ok g -> (forall q, occupies g q -> ~ S q) -> local_to n (off S) B -> exists B', pull_right n S (step n vals g) B B'.
Proof.
  intros n vals S g A HU HN HS HA. destruct (step_form n vals g HU HN) as (M & cs & ts & HG & O & [(_ & E)|(q & l & _ & ET & Hq & F & E)]).
  - destruct (right_sandwich n S M cs ts A (go_qubits _ _ _ _ _ _ HG)) as (A' & L & H); [intros q Q; apply HS, O, Q|exact HA|]. exists A'. split; [exact L|]. intros B HB r. rewrite E. apply H; exact HB.
  - destruct (right_channels n S q l A Hq) as (A1 & L1 & H1); [apply HS, O; rewrite ET; apply in_or_app; right; left; reflexivity|exact HA|].
    destruct (right_sandwich n S M cs ts A1 (go_qubits _ _ _ _ _ _ HG)) as (A' & L & H); [intros x Q; apply HS, O, Q|exact L1|].
    exists A'. split; [exact L|]. intros B HB r. rewrite E, (H1 B HB). apply H; exact HB.
Qed.
Lemma split_evolve : forall n vals (S : nat -> Prop) gs, Forall (usable n vals) gs -> Forall noise_ok gs ->
    (forall g, In g gs -> (forall q, occupies g q -> S q) \/ (forall q, occupies g q -> ~ S q)) -> forall A B, local_to n S A -> local_to n (off S) B ->
    exists A' B', local_to n S A' /\ local_to n (off S) B' /\ forall r,
      ktrace n (kmul n A (kmul n B (evolve n vals gs r))) = ktrace n (kmul n A' (kmul n B' r)) /\
      ktrace n (kmul n A (evolve n vals gs r)) = ktrace n (kmul n A' r) /\ ktrace n (kmul n B (evolve n vals gs r)) = ktrace n (kmul n B' r).
Proof.
  intros n vals S gs. induction gs as [|g gs IH] using rev_ind; intros FU FN SP A B HA HB; [exists A, B; repeat split; assumption|].
  apply Forall_app in FU as [FU F1]; apply Forall_app in FN as [FN F2]; inversion F1 as [|? ? HU _]; inversion F2 as [|? ? HN _]; subst.
  assert (SP' : forall g, In g gs -> (forall q, occupies g q -> S q) \/ (forall q, occupies g q -> ~ S q)) by (intros h I; apply SP, in_or_app; left; exact I).
  assert (Z : forall X r, ktrace n (kmul n X (kmul n kid r)) = ktrace n (kmul n X r)) by (intros X r; apply ktrace_ext, kmul_ext; [apply keq_refl|apply kmul_id_l]).
  destruct (SP g) as [I|I]; [apply in_or_app; right; left; reflexivity| |].
  - destruct (left_step n vals S g A HU HN I HA) as (A1 & L1 & E1). destruct (IH FU FN SP' A1 B L1 HB) as (A' & B' & LA & LB & E). exists A', B'. split; [exact LA|split; [exact LB|]].
    intro r. rewrite evolve_app. cbn [evolve]. destruct (E r) as (X1 & X2 & X3). split; [rewrite (E1 B HB); exact X1|split].
    + rewrite <- Z, (E1 kid (local_id n _)), Z. exact X2.
    + rewrite (drop_step n vals (off S) g B _ HU HN HB); [exact X3|]. intros q Q N. exact (N (I q Q)).
  - destruct (right_step n vals S g B HU HN I HB) as (B1 & L1 & E1). destruct (IH FU FN SP' A B1 HA L1) as (A' & B' & LA & LB & E). exists A', B'. split; [exact LA|split; [exact LB|]].
    intro r. rewrite evolve_app. cbn [evolve]. destruct (E r) as (X1 & X2 & X3). split; [rewrite (E1 A HA); exact X1|split].
    + rewrite (drop_step n vals S g A _ HU HN HA I). exact X2.
    + pose proof (E1 kid (local_id n _) (evolve n vals gs r)) as Q. rewrite !(ktrace_ext n (kmul n kid _) _ (kmul_id_l n _)) in Q. rewrite Q. exact X3.
Qed.

(** ** local operators at a basis state *)
Definition proj (ts v : list nat) : op := ctrl_kernel (fun a b => Cmul (kid a v) (kid b v)) [] ts.
Lemma bits_at_inj : forall ts x y i, bits_at x ts = bits_at y ts -> In i ts -> nth i x 0 = nth i y 0.
Proof. intros ts x y i Q I. induction ts as [|t ts IH]; [destruct I|]. cbn [bits_at map] in Q. injection Q as Q1 Q2. destruct I as [->|I]; auto. Qed.
Lemma proj_entry : forall n ts v x y, valid_qubits n ts -> In x (bitstrings n) -> In y (bitstrings n) ->
    proj ts v x y = if list_eq_dec Nat.eq_dec (bits_at x ts) v then kid x y else C0.
Proof.
  intros n ts v x y V Hx Hy. unfold proj. rewrite (ctrl_kernel_closed n) by assumption. change (all_ones (bits_at x [])) with true. cbv iota.
  destruct (list_eq_dec Nat.eq_dec (bits_at x ts) v) as [E1|E1].
  - rewrite E1, kid_eq. destruct (list_eq_dec Nat.eq_dec x y) as [<-|NE].
    + destruct (list_eq_dec Nat.eq_dec (overwrite x ts (bits_at x ts)) x) as [_|N]; [rewrite E1, !kid_eq; ring|]. elim N. apply (agree_off_overwrite n); try assumption. intros k _; reflexivity.
    + rewrite (kid_ne x y) by assumption. destruct (list_eq_dec Nat.eq_dec (overwrite x ts (bits_at y ts)) y) as [E|E]; [|reflexivity].
      rewrite kid_ne; [ring|]. intro E2. apply NE. apply (agree_off_overwrite n) in E; try assumption.
      pose proof (bitstrings_length n x Hx) as Lx. pose proof (bitstrings_length n y Hy) as Ly. apply (nth_ext _ _ 0 0); [congruence|]. intros i Hi.
      destruct (in_dec Nat.eq_dec i ts) as [I|I]; [|apply E; exact I]. apply (bits_at_inj ts); [congruence|exact I].
  - destruct (list_eq_dec Nat.eq_dec (overwrite x ts (bits_at y ts)) y) as [E|E]; [|reflexivity]. rewrite (kid_ne (bits_at x ts) v) by assumption. ring.
Qed.
Lemma proj_mul_l : forall n ts v A x z, valid_qubits n ts -> In x (bitstrings n) -> kmul n (proj ts v) A x z = if list_eq_dec Nat.eq_dec (bits_at x ts) v then A x z else C0.
Proof.
  intros n ts v A x z V Hx. unfold kmul. destruct (list_eq_dec Nat.eq_dec (bits_at x ts) v) as [E|E].
  - rewrite <- (csum_kid_l n x (fun u => A u z) Hx). apply csum_ext. intros u Hu. rewrite (proj_entry n) by assumption. destruct (list_eq_dec Nat.eq_dec (bits_at x ts) v); [reflexivity|contradiction].
  - apply csum_zero. intros u Hu. rewrite (proj_entry n) by assumption. destruct (list_eq_dec Nat.eq_dec (bits_at x ts) v); [contradiction|ring].
Qed.
Lemma proj_adj : forall n ts v, valid_qubits n ts -> hermitian n (proj ts v).
Proof.
  intros n ts v V x y Hx Hy. unfold kadj. rewrite !(proj_entry n) by assumption.
  destruct (list_eq_dec Nat.eq_dec x y) as [<-|N]; [destruct (list_eq_dec Nat.eq_dec (bits_at x ts) v); [apply kid_conj|unfold Cconj, C0; simpl; f_equal; ring]|].
  rewrite (kid_ne x y) by assumption. rewrite (kid_ne y x) by congruence. destruct (list_eq_dec Nat.eq_dec (bits_at y ts) v), (list_eq_dec Nat.eq_dec (bits_at x ts) v); unfold Cconj, C0; simpl; f_equal; ring.
Qed.
Lemma local_zero_entry : forall n (S : nat -> Prop) A x z q, local_to n S A -> q < n -> ~ S q -> In x (bitstrings n) -> In z (bitstrings n) ->
    nth q x 0 <> nth q z 0 -> A x z = C0.
Proof.
  intros n S A x z q HA Hq NS Hx Hz N. assert (V : valid_qubits n [q]) by (apply valid_one; exact Hq).
  assert (E : kmul n A (proj [q] (bits_at x [q])) x z = kmul n (proj [q] (bits_at x [q])) A x z).
  { apply HA; [exact V|intros ? [<-|[]]; exact NS|exact Hx|exact Hz]. }
  rewrite proj_mul_l in E by assumption. destruct (list_eq_dec Nat.eq_dec (bits_at x [q]) (bits_at x [q])) as [_|Q]; [|congruence].
  rewrite <- E. unfold kmul. apply csum_zero. intros u Hu. rewrite (proj_entry n) by assumption. destruct (list_eq_dec Nat.eq_dec (bits_at u [q]) (bits_at x [q])) as [E1|_]; [|ring].
  rewrite kid_ne; [ring|]. intros ->. cbn [bits_at map] in E1. injection E1 as E1. congruence.
Qed.
Definition basis_density (x : list nat) : op := fun u v => if list_eq_dec Nat.eq_dec u x then if list_eq_dec Nat.eq_dec v x then C1 else C0 else C0.
Lemma basis_density_kid : forall x u v, basis_density x u v = Cmul (kid u x) (kid v x).
Proof. intros x u v. unfold basis_density, kid. destruct (list_eq_dec Nat.eq_dec u x), (list_eq_dec Nat.eq_dec v x); ring. Qed.
Lemma trace_basis : forall n K x, In x (bitstrings n) -> ktrace n (kmul n K (basis_density x)) = K x x.
Proof.
  intros n K x Hx. unfold ktrace, kmul.
  rewrite (csum_ext _ _ (fun u => Cmul (kid x u) (csum (bitstrings n) (fun z => Cmul (kid x z) (K u z))))).
  - rewrite (csum_kid_l n x (fun u => csum (bitstrings n) (fun z => Cmul (kid x z) (K u z))) Hx). apply (csum_kid_l n x (fun z => K x z) Hx).
  - intros u _. rewrite <- csum_scale_l. apply csum_ext. intros z _. rewrite basis_density_kid, (kid_sym x u), (kid_sym x z). ring.
Qed.
Lemma split_basis : forall n (reg : nat -> bool) A B x, local_to n (fun q => reg q = true) A -> local_to n (off (fun q => reg q = true)) B -> In x (bitstrings n) ->
    ktrace n (kmul n A (kmul n B (basis_density x))) = Cmul (ktrace n (kmul n A (basis_density x))) (ktrace n (kmul n B (basis_density x))).
Proof.
  intros n reg A B x HA HB Hx. rewrite <- (ktrace_ext n _ _ (kmul_assoc n A B (basis_density x))). rewrite !trace_basis by exact Hx. unfold kmul.
  rewrite (csum_ext _ _ (fun z => Cmul (kid x z) (Cmul (A x x) (B x x)))); [apply (csum_kid_l n x (fun _ => Cmul (A x x) (B x x)) Hx)|].
  intros z Hz. destruct (list_eq_dec Nat.eq_dec x z) as [<-|N]; [rewrite kid_eq; ring|]. rewrite (kid_ne x z) by exact N.
  assert (D : exists q, q < n /\ nth q x 0 <> nth q z 0).
  { pose proof (bitstrings_length n x Hx) as Lx. pose proof (bitstrings_length n z Hz) as Lz.
    destruct (existsb (fun q => negb (Nat.eqb (nth q x 0) (nth q z 0))) (seq 0 n)) eqn:Q.
    - apply existsb_exists in Q as (q & I & Q). exists q. apply in_seq in I. split; [lia|]. apply negb_true_iff, Nat.eqb_neq in Q. exact Q.
    - elim N. apply (nth_ext _ _ 0 0); [congruence|]. intros i Hi. destruct (Nat.eq_dec (nth i x 0) (nth i z 0)) as [E|E]; [exact E|].
      assert (X : existsb (fun q => negb (Nat.eqb (nth q x 0) (nth q z 0))) (seq 0 n) = true); [|congruence].
      apply existsb_exists. exists i. split; [apply in_seq; lia|]. apply negb_true_iff, Nat.eqb_neq. exact E. }
  destruct D as (q & Hq & D). destruct (reg q) eqn:R.
  - rewrite (local_zero_entry n _ B z x q HB Hq); [ring|intro X; exact (X R)|exact Hz|exact Hx|congruence].
  - rewrite (local_zero_entry n _ A x z q HA Hq); [ring|congruence|exact Hx|exact Hz|exact D].
Qed.
Lemma evolve_split : forall n vals reg gs x r A B, Forall (usable n vals) gs -> Forall noise_ok gs -> never_interact reg gs -> In x (bitstrings n) -> keq n r (basis_density x) ->
    local_to n (fun q => reg q = true) A -> local_to n (off (fun q => reg q = true)) B ->
    ktrace n (kmul n A (kmul n B (evolve n vals gs r))) = Cmul (ktrace n (kmul n A (evolve n vals gs r))) (ktrace n (kmul n B (evolve n vals gs r))).
Proof.
  intros n vals reg gs x r A B FU FN NI Hx HR HA HB.
  destruct (split_evolve n vals (fun q => reg q = true) gs FU FN) with (A := A) (B := B) as (A' & B' & LA & LB & E); try assumption.
  - intros g I. destruct (NI g I) as [X|X]; [left; exact X|right]. intros q Q. rewrite (X q Q). discriminate.
  - destruct (E r) as (E1 & E2 & E3). rewrite E1, E2, E3.
    rewrite (ktrace_ext n _ (kmul n A' (kmul n B' (basis_density x)))) by (apply kmul_ext; [apply keq_refl|apply kmul_ext; [apply keq_refl|exact HR]]).
    rewrite (ktrace_ext n (kmul n A' r) (kmul n A' (basis_density x))) by (apply kmul_ext; [apply keq_refl|exact HR]).
    rewrite (ktrace_ext n (kmul n B' r) (kmul n B' (basis_density x))) by (apply kmul_ext; [apply keq_refl|exact HR]).
    apply (split_basis n reg); assumption.
Qed.
Lemma real_trace : forall n A r, hermitian n A -> positive n r -> im (ktrace n (kmul n A r)) = 0%R.
Proof.
  intros n A r HA P. apply positive_hermitian in P. assert (E : ktrace n (kmul n A r) = Cconj (ktrace n (kmul n A r))).
  { rewrite <- ktrace_adj. rewrite ktrace_cyclic. apply ktrace_ext. rewrite kadj_mul. apply kmul_ext; apply keq_sym; assumption. }
  apply (f_equal im) in E. unfold Cconj in E. simpl in E. lra.
Qed.
Lemma prepared_physical : forall n x st, prepared n x st -> positive n (density_of st) /\ ktrace n (density_of st) = C1.
Proof.
  intros n x st (Hx & HS & E). fold (basis_density x) in E. destruct (c72_product_thm n x Hx) as (S1 & V & N1 & _).
  assert (P : physical n (SDense (product_state x))) by exact N1. apply (physical_density n (SDense (product_state x)) S1) in P as [P T].
  assert (Q : keq n (density_of st) (density_of (SDense (product_state x)))).
  { intros u v Hu Hv. rewrite (E u v Hu Hv), basis_density_kid. cbn [density_of]. unfold pure_density. rewrite (V u Hu), (V v Hv). unfold ket, kid.
    destruct (list_eq_dec Nat.eq_dec u x), (list_eq_dec Nat.eq_dec v x); unfold Cconj, Cmul, C0, C1; simpl; f_equal; ring. }
  split; [|rewrite (ktrace_ext n _ _ Q); exact T]. intro f. specialize (P f). unfold qform, inner_product in *. 
  assert (X : csum (bitstrings n) (fun u => Cmul (Cconj (f u)) (apply_kernel n (density_of st) f u)) = csum (bitstrings n) (fun u => Cmul (Cconj (f u)) (apply_kernel n (density_of (SDense (product_state x))) f u))).
  { apply csum_ext. intros u Hu. f_equal. apply apply_kernel_ext; [exact Q|intros z _; reflexivity|exact Hu]. }
  rewrite X. exact P.
Qed.
Lemma outside_off : forall reg o w n vals sq K, measured_outside reg o -> denotes w n vals sq o K -> local_to n (off (fun q => reg q = true)) K.
Proof. intros reg o w n vals sq K M D. eapply local_mono; [|apply (denotes_local _ _ _ _ _ _ D)]. intros q (g & I & Q) X. rewrite (M g I q Q) in X. discriminate. Qed.
Lemma inside_on : forall reg o w n vals sq K, measured_inside reg o -> denotes w n vals sq o K -> local_to n (fun q => reg q = true) K.
Proof. intros reg o w n vals sq K M D. eapply local_mono; [|apply (denotes_local _ _ _ _ _ _ D)]. intros q (g & I & Q). exact (M g I q Q). Qed.
Lemma single_observable : forall w n vals st gs o K, readable w n vals st gs [o] K -> exists sq A, denotes w n vals sq o A /\ keq n K A.
Proof.
  intros w n vals st gs o K ((sq & Ks & _ & F & ->) & _). inversion F as [|? A ? ? D F' E1 E2]; subst. inversion F'; subst. exists sq, A. split; [exact D|].
  intros u v _ _. cbn [ksum]. unfold kadd, kzero. ring.
Qed.
Lemma c117_product : forall w n vals reg c gs x st a b A B AB mode key, set_order (set_iter w) -> flat_values vals -> runnable n vals c gs -> prepared n x st -> never_interact reg gs ->
    measured_inside reg a -> measured_outside reg b -> hermitian n A -> readable w n vals st gs [a] A -> readable w n vals st gs [b] B -> readable w n vals st gs [OpSequence [a; b]] AB -> exact_mode mode ->
    exists va vb, expectation w st c [[a]; [b]; [OpSequence [a; b]]] vals mode 0 key = Ok [va; vb; (va * vb)%R].
Proof.
  intros w n vals reg c gs x st a b A B AB mode key SO FV RN PR NI MA MB HA RA RB RAB EM. pose proof (prepared_physical n x st PR) as [P T]. pose proof PR as (Hx & HS & HD).
  set (r := evolve n vals gs (density_of st)). exists (mean_density n A r), (mean_density n B r).
  rewrite (exact_spec w n vals c gs st [[a]; [b]; [OpSequence [a; b]]] [A; B; AB] mode key SO FV RN HS); [|discriminate|repeat (apply Forall2_cons; [assumption|]); apply Forall2_nil|exact EM].
  cbn [map]. fold r. do 4 f_equal. destruct (single_observable _ _ _ _ _ _ _ RA) as (sa & A1 & DA & EA). destruct (single_observable _ _ _ _ _ _ _ RB) as (sb & B1 & DB & EB).
  destruct (single_observable _ _ _ _ _ _ _ RAB) as (sc & AB1 & DAB & EAB). pose proof RN as (_ & _ & FU & _ & FN).
  destruct (evolve_physical n vals gs _ FU FN P T) as [P' _]. fold r in P'.
  assert (LA : local_to n (fun q => reg q = true) A) by (eapply local_ext; [exact EA|exact (inside_on _ _ _ _ _ _ _ MA DA)]).
  assert (LB : local_to n (off (fun q => reg q = true)) B) by (eapply local_ext; [exact EB|exact (outside_off _ _ _ _ _ _ _ MB DB)]).
  assert (EQ : keq n AB (kmul n B A)).
  { eapply keq_trans; [exact EAB|]. inversion DAB as [| | | | |l Ks SQ F E1 E2|]; subst. inversion F as [|? A2 ? ? D2 F' E1 E2]; subst. inversion F' as [|? B2 ? ? D3 F'' E1 E2]; subst. inversion F''; subst.
    cbn [kprod]. eapply keq_trans; [apply kmul_ext; [apply kmul_id_l|apply keq_refl]|].
    apply kmul_ext; [eapply keq_trans; [apply (denotes_unique _ _ _ _ _ _ _ _ D3 DB)|apply keq_sym; exact EB]|eapply keq_trans; [apply (denotes_unique _ _ _ _ _ _ _ _ D2 DA)|apply keq_sym; exact EA]]. }
  pose proof (evolve_split n vals (fun q => negb (reg q)) gs x (density_of st) B A FU FN) as Q. fold r in Q.
  unfold mean_density. rewrite (ktrace_ext n _ (kmul n B (kmul n A r))) by (eapply keq_trans; [apply kmul_ext; [exact EQ|apply keq_refl]|apply kmul_assoc]).
  rewrite Q; [| |exact Hx|exact HD| |].
  - pose proof (real_trace n A r HA P') as Z. unfold Cmul. simpl. rewrite Z. ring.
  - intros g I. destruct (NI g I) as [X|X]; [right|left]; intros q O; rewrite (X q O); reflexivity.
  - eapply local_mono; [|exact LB]. intros q N. destruct (reg q) eqn:E; [elim N; exact E|reflexivity].
  - eapply local_mono; [|exact LA]. intros q E N. cbv beta in E. rewrite E in N. discriminate N.
Qed.

Lemma same_on_bits : forall n reg x y, same_on n reg x y = true <-> bits_at x (filter reg (seq 0 n)) = bits_at y (filter reg (seq 0 n)).
Proof.
  intros n reg x y. unfold same_on, bits_at. induction (seq 0 n) as [|q l IH]; [split; reflexivity|]. cbn [forallb filter]. rewrite andb_true_iff, IH. destruct (reg q).
  - cbn [map]. rewrite Nat.eqb_eq. split; [intros [-> ->]; reflexivity|intro E; injection E; auto].
  - tauto.
Qed.
Lemma register_trace : forall n reg out r y, keq n (density_of out) r -> register_probability n reg out y = re (ktrace n (kmul n (proj (filter reg (seq 0 n)) (bits_at y (filter reg (seq 0 n)))) r)).
Proof.
  intros n reg out r y E. unfold register_probability, ktrace. rewrite re_csum_rsum. apply rsum_ext. intros x Hx.
  rewrite proj_mul_l; [|split; [apply NoDup_filter, seq_NoDup|apply Forall_forall; intros q Q; apply filter_In in Q as [Q _]; apply in_seq in Q; lia]|exact Hx].
  pose proof (same_on_bits n reg x y) as S. destruct (list_eq_dec Nat.eq_dec (bits_at x (filter reg (seq 0 n))) (bits_at y (filter reg (seq 0 n)))) as [Q|Q].
  - apply S in Q. rewrite Q. unfold outcome_probability. rewrite (E x x Hx Hx). reflexivity.
  - destruct (same_on n reg x y); [elim Q; apply S; reflexivity|reflexivity].
Qed.
Lemma filter_valid : forall n reg, valid_qubits n (filter reg (seq 0 n)).
Proof. intros n reg. split; [apply NoDup_filter, seq_NoDup|]. apply Forall_forall; intros q Q; apply filter_In in Q as [Q _]; apply in_seq in Q; lia. Qed.
Lemma c117_outcomes : forall w n vals reg c gs x st, set_order (set_iter w) -> runnable n vals c gs -> prepared n x st -> never_interact reg gs ->
    exists out, run w c st vals = Ok (Some out) /\ state_of n out /\ forall y, In y (bitstrings n) ->
      outcome_probability out y = (register_probability n reg out y * register_probability n (fun q => negb (reg q)) out y)%R.
Proof.
  intros w n vals reg c gs x st SO RN PR NI. pose proof (prepared_physical n x st PR) as [P T]. pose proof PR as (Hx & HS & HD).
  destruct (output_spec w n vals c gs st SO RN HS) as (out & E & _ & _ & So & K & _). exists out. split; [exact E|split; [exact So|]]. intros y Hy.
  pose proof RN as (_ & _ & FU & _ & FN). destruct (evolve_physical n vals gs _ FU FN P T) as [P' _]. rewrite !(register_trace n _ out _ y K).
  set (r := evolve n vals gs (density_of st)) in *. set (ts := filter reg (seq 0 n)). set (us := filter (fun q => negb (reg q)) (seq 0 n)).
  assert (VT : valid_qubits n ts) by apply filter_valid. assert (VU : valid_qubits n us) by apply filter_valid.
  pose proof (evolve_split n vals reg gs x (density_of st) (proj ts (bits_at y ts)) (proj us (bits_at y us)) FU FN NI Hx HD) as Q. fold r in Q.
  assert (Z := real_trace n (proj ts (bits_at y ts)) r (proj_adj n ts _ VT) P').
  transitivity (re (Cmul (ktrace n (kmul n (proj ts (bits_at y ts)) r)) (ktrace n (kmul n (proj us (bits_at y us)) r)))); [|unfold Cmul; simpl; rewrite Z; ring].
  rewrite <- Q; [| |].
  - unfold outcome_probability. rewrite (K y y Hy Hy). fold r. f_equal. unfold ktrace.
    rewrite (csum_ext _ _ (fun u => Cmul (kid y u) (r u u))); [symmetry; apply (csum_kid_l n y (fun u => r u u) Hy)|].
    intros u Hu. rewrite (proj_mul_l n ts) by assumption. rewrite (proj_mul_l n us) by assumption.
    destruct (list_eq_dec Nat.eq_dec y u) as [<-|N]; [rewrite kid_eq|rewrite (kid_ne y u) by exact N].
    + destruct (list_eq_dec Nat.eq_dec (bits_at y ts) (bits_at y ts)) as [_|X]; [|congruence]. destruct (list_eq_dec Nat.eq_dec (bits_at y us) (bits_at y us)) as [_|X]; [ring|congruence].
    + destruct (list_eq_dec Nat.eq_dec (bits_at u ts) (bits_at y ts)) as [X|X]; [|ring]. destruct (list_eq_dec Nat.eq_dec (bits_at u us) (bits_at y us)) as [X'|X']; [|ring].
      elim N. pose proof (bitstrings_length n y Hy) as Ly. pose proof (bitstrings_length n u Hu) as Lu. apply (nth_ext _ _ 0 0); [congruence|]. intros i Hi. symmetry.
      destruct (reg i) eqn:R; [apply (bits_at_inj ts)|apply (bits_at_inj us)]; try assumption; (apply filter_In; split; [apply in_seq; lia|rewrite R; reflexivity]).
  - apply local_kernel; [exact VT|]. intros q I. apply filter_In in I as [_ I]. exact I.
  - apply local_kernel; [exact VU|]. intros q I X. apply filter_In in I as [_ I]. rewrite X in I. discriminate I.
Qed.
