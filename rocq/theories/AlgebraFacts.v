(** * Traces, positivity, commutation, linearity; pure density matrices *)
From Coq Require Import List Arith Bool Reals Lia Lra Permutation Setoid Morphisms.
From Verif Require Import Cplx Py PyFacts Ndarray NdFacts OperatorUtils
  Spec SpecFacts ApplyFacts DmFacts.
Import ListNotations.
Local Open Scope nat_scope.

(** rewriting with equality of operators and vectors *)
Global Instance keq_equiv n : Equivalence (keq n).
Proof. split; [intros A; apply keq_refl|intros A B; apply keq_sym|intros A B D; apply keq_trans]. Qed.
Global Instance veq_equiv n : Equivalence (veq n).
Proof. split; [intros A; apply veq_refl|intros A B; apply veq_sym|intros A B D; apply veq_trans]. Qed.
Global Instance kmul_proper n : Proper (keq n ==> keq n ==> keq n) (kmul n).
Proof. intros A A' HA B B' HB; apply kmul_ext; assumption. Qed.
Global Instance kadj_proper n : Proper (keq n ==> keq n) kadj.
Proof. intros A A' HA; apply kadj_ext; assumption. Qed.
Lemma kadd_ext : forall n A A' B B', keq n A A' -> keq n B B' -> keq n (kadd A B) (kadd A' B').
Proof. intros n A A' B B' HA HB x y Hx Hy; unfold kadd; rewrite HA, HB by assumption; reflexivity. Qed.
Global Instance kadd_proper n : Proper (keq n ==> keq n ==> keq n) kadd.
Proof. intros A A' HA B B' HB; apply kadd_ext; assumption. Qed.
Global Instance kscale_proper n : Proper (eq ==> keq n ==> keq n) kscale.
Proof. intros c c' -> A A' HA x y Hx Hy; unfold kscale; rewrite HA by assumption; reflexivity. Qed.
Global Instance apply_kernel_proper n : Proper (keq n ==> veq n ==> veq n) (apply_kernel n).
Proof. intros A A' HA f g H; apply apply_kernel_ext; assumption. Qed.
Global Instance inner_proper n : Proper (veq n ==> veq n ==> eq) (inner_product n).
Proof. intros f f' H g g' H'; apply inner_ext; assumption. Qed.
Lemma norm2_ext : forall n f g, veq n f g -> norm2 n f = norm2 n g.
Proof. intros n f g H; unfold norm2; apply rsum_ext; intros x Hx; rewrite H by assumption; reflexivity. Qed.
Global Instance norm2_proper n : Proper (veq n ==> eq) (norm2 n).
Proof. intros f g H; apply norm2_ext; assumption. Qed.

Lemma ktrace_ext : forall n A B, keq n A B -> ktrace n A = ktrace n B.
Proof. intros n A B H; unfold ktrace; apply csum_ext; intros x Hx; apply H; assumption. Qed.

Global Instance ktrace_proper n : Proper (keq n ==> eq) (ktrace n).
Proof. intros A B H; apply ktrace_ext; assumption. Qed.

Lemma ktrace_cyclic : forall n A B, ktrace n (kmul n A B) = ktrace n (kmul n B A).
Proof.
  intros n A B; unfold ktrace, kmul; rewrite csum_swap.
  apply csum_ext; intros x _; apply csum_ext; intros y _; ring.
Qed.

Lemma ktrace_conjugation : forall n U rho, unitary n U ->
    ktrace n (kmul n (kmul n U rho) (kadj U)) = ktrace n rho.
Proof.
  intros n U rho [H _]. rewrite ktrace_cyclic.
  apply ktrace_ext.
  eapply keq_trans; [apply keq_sym, kmul_assoc|].
  eapply keq_trans; [apply kmul_ext; [exact H|apply keq_refl]|apply kmul_id_l].
Qed.

Lemma hermitian_ext : forall n A B, keq n A B -> hermitian n A -> hermitian n B.
Proof.
  intros n A B E H; unfold hermitian in *.
  eapply keq_trans; [apply kadj_ext, keq_sym; exact E|]. eapply keq_trans; [exact H|exact E].
Qed.

Lemma hermitian_conjugation : forall n U rho, hermitian n rho ->
    hermitian n (kmul n (kmul n U rho) (kadj U)).
Proof.
  intros n U rho H; unfold hermitian.
  eapply keq_trans; [apply kadj_mul|].
  eapply keq_trans; [apply kmul_ext; [apply kadj_invol|apply kadj_mul]|].
  eapply keq_trans; [apply keq_sym, kmul_assoc|].
  apply kmul_ext; [|apply keq_refl].
  apply kmul_ext; [apply keq_refl|exact H].
Qed.

Lemma qform_ext : forall n A B f, keq n A B -> qform n A f = qform n B f.
Proof.
  intros n A B f H; unfold qform; apply inner_ext; [apply veq_refl|].
  apply apply_kernel_ext; [exact H|apply veq_refl].
Qed.

Lemma qform_conjugation : forall n U rho f,
    qform n (kmul n (kmul n U rho) (kadj U)) f = qform n rho (apply_kernel n (kadj U) f).
Proof.
  intros n U rho f; unfold qform.
  transitivity (inner_product n f (apply_kernel n U (apply_kernel n rho (apply_kernel n (kadj U) f)))).
  - apply inner_ext; [apply veq_refl|].
    eapply veq_trans; [apply apply_kernel_mul|apply apply_kernel_mul].
  - apply inner_adj.
Qed.

Lemma positive_ext : forall n A B, keq n A B -> positive n A -> positive n B.
Proof. intros n A B E H f; rewrite <- (qform_ext n A B f E); apply H. Qed.

Lemma positive_conjugation : forall n U rho, positive n rho -> positive n (kmul n (kmul n U rho) (kadj U)).
Proof. intros n U rho H f; rewrite qform_conjugation; apply H. Qed.

(** an operator is determined by its action *)
Lemma apply_kernel_delta : forall n K x y, In y (bitstrings n) ->
    apply_kernel n K (fun z => kid z y) x = K x y.
Proof. intros n K x y Hy; unfold apply_kernel; apply (csum_kid_r n y (fun z => K x z) Hy). Qed.

Lemma keq_of_action : forall n A B, (forall psi, veq n (apply_kernel n A psi) (apply_kernel n B psi)) -> keq n A B.
Proof.
  intros n A B H x y Hx Hy.
  rewrite <- (apply_kernel_delta n A x y Hy), <- (apply_kernel_delta n B x y Hy); apply H; assumption.
Qed.

(** ** disjoint gates commute *)
Lemma gate_action_comm : forall n A B ts ts' psi x, valid_qubits n (ts ++ ts') -> In x (bitstrings n) ->
    gate_action A ts (gate_action B ts' psi) x = gate_action B ts' (gate_action A ts psi) x.
Proof.
  intros n A B ts ts' psi x V Hx; unfold gate_action.
  transitivity (csum (bitstrings (length ts)) (fun y => csum (bitstrings (length ts')) (fun z =>
    Cmul (A (bits_at x ts) y) (Cmul (B (bits_at x ts') z) (psi (overwrite (overwrite x ts y) ts' z)))))).
  - apply csum_ext; intros y Hy; rewrite <- csum_scale_l; apply csum_ext; intros z Hz.
    rewrite bits_at_overwrite_disj; [reflexivity|].
    intros p Hp Hq; exact (valid_app_disj n ts ts' p V Hq Hp).
  - rewrite csum_swap. apply csum_ext; intros z Hz; rewrite <- csum_scale_l; apply csum_ext; intros y Hy.
    rewrite bits_at_overwrite_disj by (intros p Hp Hq; exact (valid_app_disj n ts ts' p V Hp Hq)).
    rewrite (overwrite_comm n x ts ts' y z V) by
        (first [apply bitstrings_length; assumption | apply bitstrings_length in Hy; assumption
               | apply bitstrings_length in Hz; assumption]).
    ring.
Qed.

Lemma gate_action_ext : forall n M ts f g x, veq n f g -> In x (bitstrings n) ->
    gate_action M ts f x = gate_action M ts g x.
Proof.
  intros n M ts f g x H Hx; unfold gate_action; apply csum_ext; intros y Hy.
  rewrite H; [reflexivity|]. apply overwrite_bits; assumption.
Qed.

Lemma gate_action_if : forall n M ts (b : list nat -> bool) f g x, In x (bitstrings n) ->
    (forall y, In y (bitstrings (length ts)) -> b (overwrite x ts y) = b x) ->
    gate_action M ts (fun z => if b z then f z else g z) x = if b x then gate_action M ts f x else gate_action M ts g x.
Proof.
  intros n M ts b f g x Hx H; unfold gate_action.
  transitivity (csum (bitstrings (length ts)) (fun y => Cmul (M (bits_at x ts) y)
     (if b x then f (overwrite x ts y) else g (overwrite x ts y)))).
  - apply csum_ext; intros y Hy; rewrite H by assumption; reflexivity.
  - destruct (b x); reflexivity.
Qed.

Lemma ctrl_action_comm : forall n A B cs ts cs' ts' psi x,
    valid_qubits n ((cs ++ ts) ++ (cs' ++ ts')) -> In x (bitstrings n) ->
    ctrl_action A cs ts (ctrl_action B cs' ts' psi) x = ctrl_action B cs' ts' (ctrl_action A cs ts psi) x.
Proof.
  intros n A B cs ts cs' ts' psi x V Hx; unfold ctrl_action.
  assert (D1 : forall y, bits_at (overwrite x ts y) cs' = bits_at x cs').
  { intro y; apply bits_at_overwrite_disj; intros p Hp Hq.
    refine (valid_app_disj n _ _ p V _ _); apply in_or_app; auto. }
  assert (D2 : forall y, bits_at (overwrite x ts' y) cs = bits_at x cs).
  { intro y; apply bits_at_overwrite_disj; intros p Hp Hq.
    refine (valid_app_disj n _ _ p V _ _); apply in_or_app; auto. }
  assert (V' : valid_qubits n (ts ++ ts')).
  { destruct V as [N F]; split.
    - apply NoDup_app_intro.
      + apply NoDup_app_remove_r in N; apply NoDup_app_remove_l in N; exact N.
      + apply NoDup_app_remove_l in N; apply NoDup_app_remove_l in N; exact N.
      + intros q H1 H2. refine (valid_app_disj n _ _ q (Logic.conj N F) _ _); apply in_or_app; auto.
    - apply Forall_app in F as [F1 F2]; apply Forall_app in F1 as [_ F1]; apply Forall_app in F2 as [_ F2].
      apply Forall_app; split; assumption. }
  rewrite (gate_action_if n A ts (fun z => all_ones (bits_at z cs'))) by (try assumption; intros y _; rewrite D1; reflexivity).
  rewrite (gate_action_if n B ts' (fun z => all_ones (bits_at z cs))) by (try assumption; intros y _; rewrite D2; reflexivity).
  destruct (all_ones (bits_at x cs)), (all_ones (bits_at x cs')); try reflexivity.
  apply gate_action_comm with (n := n); assumption.
Qed.

Lemma ctrl_kernel_comm : forall n A B cs ts cs' ts', valid_qubits n ((cs ++ ts) ++ (cs' ++ ts')) ->
    keq n (kmul n (ctrl_kernel A cs ts) (ctrl_kernel B cs' ts')) (kmul n (ctrl_kernel B cs' ts') (ctrl_kernel A cs ts)).
Proof.
  intros n A B cs ts cs' ts' V; apply keq_of_action; intros psi x Hx.
  rewrite (apply_kernel_mul n _ _ psi x Hx), (apply_kernel_mul n _ _ psi x Hx).
  rewrite !(ctrl_kernel_action n) by assumption.
  rewrite (ctrl_action_ext n A cs ts _ (ctrl_action B cs' ts' psi)) by
      (first [assumption | intros z Hz; apply ctrl_kernel_action; assumption]).
  rewrite (ctrl_action_ext n B cs' ts' _ (ctrl_action A cs ts psi)) by
      (first [assumption | intros z Hz; apply ctrl_kernel_action; assumption]).
  apply ctrl_action_comm with (n := n); assumption.
Qed.

(** ** linearity *)
Lemma apply_kernel_linear : forall n K a b f g x,
    apply_kernel n K (fun z => Cadd (Cmul a (f z)) (Cmul b (g z))) x =
    Cadd (Cmul a (apply_kernel n K f x)) (Cmul b (apply_kernel n K g x)).
Proof.
  intros n K a b f g x; unfold apply_kernel.
  rewrite <- !csum_scale_l, <- csum_add; apply csum_ext; intros y _; ring.
Qed.

(** ** equality of arrays from equality of entries *)
Lemma state_ext : forall n a b, is_state n a -> is_state n b -> veq n (amp a) (amp b) -> a = b.
Proof.
  intros n a b [SA WA] [SB WB] H; apply arr_ext; auto; [congruence|].
  intros v Hv; rewrite SA in Hv; apply H, bitstrings_inb; exact Hv.
Qed.
Lemma density_ext : forall n a b, is_density n a -> is_density n b -> keq n (rho_entry a) (rho_entry b) -> a = b.
Proof.
  intros n a b [SA WA] [SB WB] H; apply arr_ext; auto; [congruence|].
  intros v Hv; rewrite SA in Hv; apply bitstrings_inb in Hv; apply bits_2n in Hv as (x & y & -> & Hx & Hy).
  apply H; assumption.
Qed.
Lemma matrix_ext : forall n a b, is_matrix n a -> is_matrix n b -> keq n (entry a) (entry b) -> a = b.
Proof.
  intros n a b [SA WA] [SB WB] H; apply arr_ext; auto; [congruence|].
  intros v Hv; rewrite SA in Hv.
  inversion Hv as [|i d v' s' Hi Hv' E1 E2]; subst. inversion Hv' as [|j d v'' s'' Hj Hv'' E1 E2]; subst.
  inversion Hv''; subst.
  assert (BI : forall k, k < 2 ^ n -> exists x, In x (bitstrings n) /\ binval x = k).
  { intros k Hk. assert (IN : In k (map binval (bitstrings n))) by (rewrite binval_bitstrings; apply in_seq; lia).
    apply in_map_iff in IN as (x & E & Hx); eauto. }
  destruct (BI i Hi) as (x & Hx & <-); destruct (BI j Hj) as (y & Hy & <-).
  apply (H x y Hx Hy).
Qed.

(** ** pure states *)
Lemma bshape_outer : forall n m, bshape (repeat 2 n ++ repeat 1 m) (repeat 1 n ++ repeat 2 m) = Some (repeat 2 (n + m)).
Proof.
  induction n as [|n IH]; intros m; simpl.
  - induction m as [|m IHm]; simpl; [reflexivity|]. rewrite IHm; reflexivity.
  - rewrite IH; reflexivity.
Qed.
Lemma bindex_app : forall s t v w, length v = length s -> bindex (s ++ t) (v ++ w) = bindex s v ++ bindex t w.
Proof.
  induction s as [|d s IH]; intros t [|i v] w H; simpl in *; try lia; [reflexivity|].
  rewrite IH by lia; reflexivity.
Qed.
Lemma bindex_2 : forall n v, length v = n -> bindex (repeat 2 n) v = v.
Proof. induction n as [|n IH]; intros [|i v] H; simpl in *; try lia; [reflexivity|]. rewrite IH by lia; reflexivity. Qed.
Lemma bindex_1 : forall n v, length v = n -> bindex (repeat 1 n) v = repeat 0 n.
Proof. induction n as [|n IH]; intros [|i v] H; simpl in *; try lia; [reflexivity|]. rewrite IH by lia; reflexivity. Qed.
Lemma ravel_ones : forall n, ravel (repeat 1 n) (repeat 0 n) = 0.
Proof. induction n as [|n IH]; simpl; [reflexivity|]. rewrite IH; reflexivity. Qed.

Lemma density_mat_spec : forall n psi, is_state n psi ->
    exists rho, density_mat psi = Ok rho /\ is_density n rho /\
      forall x y, In x (bitstrings n) -> In y (bitstrings n) ->
        rho_entry rho x y = Cmul (amp psi x) (Cconj (amp psi y)).
Proof.
  intros n psi [S W]; unfold density_mat, bmul.
  assert (ND : ndim psi = n) by (unfold ndim; rewrite S; apply repeat_length).
  unfold expand_dims; cbn [shape conj map_arr]; rewrite ND, S.
  simpl firstn; simpl skipn; rewrite skipn_all2 by (rewrite repeat_length; lia).
  rewrite firstn_all2 by (rewrite repeat_length; lia).
  rewrite app_nil_r, app_nil_l, bshape_outer.
  replace (n + n) with (2 * n) by lia.
  eexists; split; [reflexivity|]; split; [split; [reflexivity|apply wf_build]|].
  intros x y Hx Hy; unfold rho_entry.
  rewrite get_build by (apply bitstrings_inb, bits_2n; eauto 6).
  pose proof (bitstrings_length _ _ Hx) as Lx; pose proof (bitstrings_length _ _ Hy) as Ly.
  rewrite !bindex_app by (rewrite repeat_length; assumption).
  rewrite !bindex_2, !bindex_1 by assumption.
  unfold get at 1 2; unfold conj, map_arr; cbn [shape data].
  rewrite (ravel_app (repeat 2 n)) by (rewrite repeat_length; congruence).
  rewrite (ravel_app (repeat 1 n)) by (rewrite !repeat_length; reflexivity).
  rewrite !ravel_ones, !prod_repeat, Nat.pow_1_l, Nat.mul_1_r, Nat.add_0_r.
  replace (0 * 2 ^ n + ravel (repeat 2 n) y) with (ravel (repeat 2 n) y) by lia.
  unfold amp, get; rewrite S; f_equal.
  rewrite (nth_map_lt Cconj (data psi) _ C0 C0); [reflexivity|].
  rewrite W, S; apply ravel_lt, bitstrings_inb; assumption.
Qed.

Lemma pure_conjugation : forall n K f x y, In x (bitstrings n) -> In y (bitstrings n) ->
    kmul n (kmul n K (fun x y => Cmul (f x) (Cconj (f y)))) (kadj K) x y =
    Cmul (apply_kernel n K f x) (Cconj (apply_kernel n K f y)).
Proof.
  intros n K f x y Hx Hy; unfold kmul, kadj, apply_kernel.
  rewrite csum_conj, <- csum_scale_l; apply csum_ext; intros z Hz.
  rewrite Cconj_mul.
  rewrite <- csum_scale_r.
  transitivity (csum (bitstrings n) (fun u => Cmul (Cmul (K x u) (f u)) (Cmul (Cconj (K y z)) (Cconj (f z))))).
  - apply csum_ext; intros u Hu; ring.
  - rewrite csum_scale_r; reflexivity.
Qed.
