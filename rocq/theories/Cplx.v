(** * Scalars: complex numbers over the standard library's reals.

    Models [jnp.complex128] / [jnp.float64] scalars of /repo/horqrux/_misc.py:8-12,
    idealised to exact arithmetic (no rounding, no overflow, no NaN). *)
From Coq Require Import Reals List Permutation Lia Lra.
Import ListNotations.
Local Open Scope R_scope.

Record C : Type := mkC { re : R; im : R }.

Declare Scope C_scope.
Delimit Scope C_scope with C.
Bind Scope C_scope with C.

Definition C0 : C := mkC 0 0.
Definition C1 : C := mkC 1 0.
Definition Ci : C := mkC 0 1.
Definition RtoC (x : R) : C := mkC x 0.
Definition Cadd (a b : C) : C := mkC (re a + re b) (im a + im b).
Definition Copp (a : C) : C := mkC (- re a) (- im a).
Definition Csub (a b : C) : C := Cadd a (Copp b).
Definition Cmul (a b : C) : C := mkC (re a * re b - im a * im b) (re a * im b + im a * re b).
Definition Cconj (a : C) : C := mkC (re a) (- im a).
(** squared modulus *)
Definition Cnorm2 (a : C) : R := re a * re a + im a * im a.
(** [jnp.exp(1j * t)] *)
Definition Cexpi (t : R) : C := mkC (cos t) (sin t).
(** modulus, [jnp.abs] *)
Definition Cabs (a : C) : R := sqrt (Cnorm2 a).

Infix "+" := Cadd : C_scope.
Infix "-" := Csub : C_scope.
Infix "*" := Cmul : C_scope.
Notation "- a" := (Copp a) : C_scope.

Lemma C_ext : forall a b : C, re a = re b -> im a = im b -> a = b.
Proof. intros [a1 a2] [b1 b2]; simpl; congruence. Qed.

Lemma C_ring_theory : ring_theory C0 C1 Cadd Cmul Csub Copp (@eq C).
Proof.
  split; intros; apply C_ext; simpl; ring.
Qed.
Add Ring C_ring : C_ring_theory.

Definition C_eq_dec (a b : C) : {a = b} + {a <> b}.
Proof.
  destruct a as [a1 a2], b as [b1 b2].
  destruct (Req_EM_T a1 b1) as [H1|H1]; [destruct (Req_EM_T a2 b2) as [H2|H2]|].
  - left; subst; reflexivity.
  - right; intro H; injection H; intros; contradiction.
  - right; intro H; injection H; intros; contradiction.
Defined.

Local Open Scope C_scope.

Lemma Cconj_add : forall a b, Cconj (a + b) = Cconj a + Cconj b.
Proof. intros; apply C_ext; simpl; ring. Qed.
Lemma Cconj_mul : forall a b, Cconj (a * b) = Cconj a * Cconj b.
Proof. intros; apply C_ext; simpl; ring. Qed.
Lemma Cconj_opp : forall a, Cconj (- a) = - Cconj a.
Proof. intros; apply C_ext; simpl; ring. Qed.
Lemma Cconj_sub : forall a b, Cconj (a - b) = Cconj a - Cconj b.
Proof. intros; apply C_ext; simpl; ring. Qed.
Lemma Cconj_invol : forall a, Cconj (Cconj a) = a.
Proof. intros; apply C_ext; simpl; ring. Qed.
Lemma Cconj_0 : Cconj C0 = C0.
Proof. apply C_ext; simpl; ring. Qed.
Lemma Cconj_1 : Cconj C1 = C1.
Proof. apply C_ext; simpl; ring. Qed.
Lemma Cconj_R : forall x, Cconj (RtoC x) = RtoC x.
Proof. intros; apply C_ext; simpl; ring. Qed.
Lemma Cmul_conj : forall a, Cconj a * a = RtoC (Cnorm2 a).
Proof. intros; apply C_ext; unfold Cnorm2; simpl; ring. Qed.
Lemma Cmul_conj_r : forall a, a * Cconj a = RtoC (Cnorm2 a).
Proof. intros; apply C_ext; unfold Cnorm2; simpl; ring. Qed.
Lemma Cmul_0_l : forall a, C0 * a = C0.
Proof. intros; ring. Qed.
Lemma Cmul_0_r : forall a, a * C0 = C0.
Proof. intros; ring. Qed.
Lemma Cmul_1_l : forall a, C1 * a = a.
Proof. intros; ring. Qed.
Lemma Cmul_1_r : forall a, a * C1 = a.
Proof. intros; ring. Qed.
Lemma Cadd_0_l : forall a, C0 + a = a.
Proof. intros; ring. Qed.
Lemma Cadd_0_r : forall a, a + C0 = a.
Proof. intros; ring. Qed.
Lemma Ci_sq : Ci * Ci = - C1.
Proof. apply C_ext; simpl; ring. Qed.
Lemma RtoC_add : forall x y, RtoC (x + y) = RtoC x + RtoC y.
Proof. intros; apply C_ext; simpl; ring. Qed.
Lemma RtoC_mul : forall x y, RtoC (x * y) = RtoC x * RtoC y.
Proof. intros; apply C_ext; simpl; ring. Qed.
Lemma RtoC_opp : forall x, RtoC (- x) = - RtoC x.
Proof. intros; apply C_ext; simpl; ring. Qed.
Lemma RtoC_inj : forall x y, RtoC x = RtoC y -> x = y.
Proof. intros x y H; injection H; auto. Qed.
Lemma Cnorm2_nonneg : forall a, (0 <= Cnorm2 a)%R.
Proof. intros [x y]; unfold Cnorm2; simpl; nra. Qed.
Lemma Cnorm2_mul : forall a b, Cnorm2 (a * b) = (Cnorm2 a * Cnorm2 b)%R.
Proof. intros [x y] [z t]; unfold Cnorm2; simpl; ring. Qed.
Lemma Cnorm2_eq0 : forall a, Cnorm2 a = 0%R -> a = C0.
Proof.
  intros [x y]; unfold Cnorm2; simpl; intro H.
  apply C_ext; simpl; nra.
Qed.
Lemma Cexpi_conj : forall t, Cconj (Cexpi t) = Cexpi (- t).
Proof. intros; apply C_ext; simpl; [rewrite cos_neg | rewrite sin_neg]; reflexivity. Qed.
Lemma Cexpi_add : forall s t, Cexpi (s + t) = Cexpi s * Cexpi t.
Proof. intros; apply C_ext; simpl; [apply cos_plus | rewrite sin_plus; ring]. Qed.
Lemma Cexpi_0 : Cexpi 0 = C1.
Proof. apply C_ext; simpl; [apply cos_0 | apply sin_0]. Qed.
Lemma Cexpi_norm2 : forall t, Cnorm2 (Cexpi t) = 1%R.
Proof. intro t; unfold Cnorm2; simpl; generalize (sin2_cos2 t); unfold Rsqr; lra. Qed.

(** ** Finite sums *)

Fixpoint csum {A : Type} (l : list A) (f : A -> C) : C :=
  match l with
  | [] => C0
  | x :: l' => f x + csum l' f
  end.

Section Sums.
  Context {A B : Type}.

  Lemma csum_ext : forall (l : list A) f g,
      (forall x, In x l -> f x = g x) -> csum l f = csum l g.
  Proof.
    induction l as [|x l IH]; intros f g H; simpl; auto.
    rewrite (H x (or_introl eq_refl)), (IH f g); auto.
    intros y Hy; apply H; right; exact Hy.
  Qed.

  Lemma csum_app : forall (l1 l2 : list A) f, csum (l1 ++ l2) f = csum l1 f + csum l2 f.
  Proof. induction l1 as [|x l IH]; intros; simpl; [|rewrite IH]; ring. Qed.

  Lemma csum_map : forall (h : B -> A) (l : list B) f,
      csum (map h l) f = csum l (fun x => f (h x)).
  Proof. induction l as [|x l IH]; intros; simpl; [|rewrite IH]; reflexivity. Qed.

  Lemma csum_flat_map : forall (h : B -> list A) (l : list B) f,
      csum (flat_map h l) f = csum l (fun x => csum (h x) f).
  Proof.
    induction l as [|x l IH]; intros; simpl; [reflexivity|].
    rewrite csum_app, IH; reflexivity.
  Qed.

  Lemma csum_zero : forall (l : list A) f, (forall x, In x l -> f x = C0) -> csum l f = C0.
  Proof.
    induction l as [|x l IH]; intros f H; simpl; auto.
    rewrite (H x (or_introl eq_refl)), IH; [ring|].
    intros y Hy; apply H; right; exact Hy.
  Qed.

  Lemma csum_add : forall (l : list A) f g,
      csum l (fun x => f x + g x) = csum l f + csum l g.
  Proof. induction l as [|x l IH]; intros; simpl; [|rewrite IH]; ring. Qed.

  Lemma csum_opp : forall (l : list A) f,
      csum l (fun x => - f x) = - csum l f.
  Proof. induction l as [|x l IH]; intros; simpl; [|rewrite IH]; ring. Qed.

  Lemma csum_scale_l : forall (l : list A) a f, csum l (fun x => a * f x) = a * csum l f.
  Proof. induction l as [|x l IH]; intros; simpl; [|rewrite IH]; ring. Qed.

  Lemma csum_scale_r : forall (l : list A) a f, csum l (fun x => f x * a) = csum l f * a.
  Proof. induction l as [|x l IH]; intros; simpl; [|rewrite IH]; ring. Qed.

  Lemma csum_conj : forall (l : list A) f, Cconj (csum l f) = csum l (fun x => Cconj (f x)).
  Proof.
    induction l as [|x l IH]; intros; simpl; [apply Cconj_0|].
    rewrite Cconj_add, IH; reflexivity.
  Qed.

End Sums.

  Lemma csum_swap : forall {A B} (l : list A) (m : list B) f,
      csum l (fun x => csum m (fun y => f x y)) = csum m (fun y => csum l (fun x => f x y)).
  Proof.
    induction l as [|x l IH]; intros; simpl.
    - symmetry; apply csum_zero; reflexivity.
    - rewrite IH. clear IH. induction m as [|y m IHm]; simpl; [ring|].
      rewrite <- IHm; ring.
  Qed.

Section Sums2.
  Context {A : Type}.
  Lemma csum_perm : forall (l1 l2 : list A) f, Permutation l1 l2 -> csum l1 f = csum l2 f.
  Proof.
    intros l1 l2 f H; induction H; simpl; try ring.
    - rewrite IHPermutation; reflexivity.
    - congruence.
  Qed.

  (** a sum with one nonzero term *)
  Lemma csum_single : forall (l : list A) x0 f,
      NoDup l -> In x0 l -> (forall x, In x l -> x <> x0 -> f x = C0) -> csum l f = f x0.
  Proof.
    induction l as [|x l IH]; intros x0 f ND Hin H; [destruct Hin|].
    inversion ND as [|? ? Hnin ND']; subst; simpl.
    destruct Hin as [->|Hin].
    - rewrite csum_zero; [ring|].
      intros y Hy; apply H; [right; exact Hy|]. intro; subst; contradiction.
    - rewrite (IH x0 f ND' Hin).
      + rewrite (H x (or_introl eq_refl)); [ring|]. intro; subst; contradiction.
      + intros y Hy Hne; apply H; [right; exact Hy|exact Hne].
  Qed.

  Lemma re_csum : forall (l : list A) f, re (csum l f) = fold_right Rplus 0%R (map (fun x => re (f x)) l).
  Proof. induction l as [|x l IH]; intros; simpl; [reflexivity|]. rewrite IH; reflexivity. Qed.
  Lemma im_csum : forall (l : list A) f, im (csum l f) = fold_right Rplus 0%R (map (fun x => im (f x)) l).
  Proof. induction l as [|x l IH]; intros; simpl; [reflexivity|]. rewrite IH; reflexivity. Qed.
End Sums2.

(** real sums *)
Fixpoint rsum {A : Type} (l : list A) (f : A -> R) : R :=
  match l with
  | [] => 0%R
  | x :: l' => (f x + rsum l' f)%R
  end.

Lemma rsum_csum : forall {A} (l : list A) f, RtoC (rsum l f) = csum l (fun x => RtoC (f x)).
Proof.
  induction l as [|x l IH]; intros; simpl; [reflexivity|].
  rewrite RtoC_add, IH; reflexivity.
Qed.
Lemma re_csum_rsum : forall {A} (l : list A) f, re (csum l f) = rsum l (fun x => re (f x)).
Proof. induction l as [|x l IH]; intros; simpl; [reflexivity|]. rewrite IH; reflexivity. Qed.
Lemma im_csum_rsum : forall {A} (l : list A) f, im (csum l f) = rsum l (fun x => im (f x)).
Proof. induction l as [|x l IH]; intros; simpl; [reflexivity|]. rewrite IH; reflexivity. Qed.
Lemma rsum_ext : forall {A} (l : list A) f g,
    (forall x, In x l -> f x = g x) -> rsum l f = rsum l g.
Proof.
  induction l as [|x l IH]; intros f g H; simpl; auto.
  rewrite (H x (or_introl eq_refl)), (IH f g); auto.
  intros y Hy; apply H; right; exact Hy.
Qed.
Lemma rsum_nonneg : forall {A} (l : list A) f,
    (forall x, In x l -> (0 <= f x)%R) -> (0 <= rsum l f)%R.
Proof.
  induction l as [|x l IH]; intros f H; simpl; [lra|].
  assert (0 <= f x)%R by (apply H; left; reflexivity).
  assert (0 <= rsum l f)%R by (apply IH; intros; apply H; right; assumption).
  lra.
Qed.
Lemma rsum_le : forall {A} (l : list A) f g,
    (forall x, In x l -> (f x <= g x)%R) -> (rsum l f <= rsum l g)%R.
Proof.
  induction l as [|x l IH]; intros f g H; simpl; [lra|].
  assert (f x <= g x)%R by (apply H; left; reflexivity).
  assert (rsum l f <= rsum l g)%R by (apply IH; intros; apply H; right; assumption).
  lra.
Qed.
Lemma rsum_scale : forall {A} (l : list A) a f, (rsum l (fun x => a * f x) = a * rsum l f)%R.
Proof. induction l as [|x l IH]; intros; simpl; [|rewrite IH]; ring. Qed.
Lemma rsum_add : forall {A} (l : list A) f g, (rsum l (fun x => f x + g x) = rsum l f + rsum l g)%R.
Proof. induction l as [|x l IH]; intros; simpl; [|rewrite IH]; ring. Qed.
Lemma rsum_map : forall {A B} (h : B -> A) (l : list B) f,
    rsum (map h l) f = rsum l (fun x => f (h x)).
Proof. induction l as [|x l IH]; intros; simpl; [|rewrite IH]; reflexivity. Qed.
