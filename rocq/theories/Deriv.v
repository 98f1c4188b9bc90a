(** * Derivatives of complex-valued functions of a real variable *)
From Coq Require Import List Arith Reals Lra.
From Verif Require Import Cplx Ndarray Spec SpecFacts.
Import ListNotations.
Local Open Scope R_scope.

Lemma dpl_ext : forall f g x l, (forall t, f t = g t) -> derivable_pt_lim f x l -> derivable_pt_lim g x l.
Proof.
  intros f g x l E H eps He; destruct (H eps He) as [d Hd]; exists d; intros h Hh Hl.
  rewrite <- !E; apply Hd; assumption.
Qed.
Lemma dpl_eq : forall f x l l', l = l' -> derivable_pt_lim f x l -> derivable_pt_lim f x l'.
Proof. intros; subst; assumption. Qed.

Lemma Cderiv_ext : forall f g t d, (forall s, f s = g s) -> Cderiv f t d -> Cderiv g t d.
Proof. intros f g t d E [H1 H2]; split; (eapply dpl_ext; [|eassumption]); intro s; cbv beta; rewrite E; reflexivity. Qed.
Lemma Cderiv_eq : forall f t d d', d = d' -> Cderiv f t d -> Cderiv f t d'.
Proof. intros; subst; assumption. Qed.
Lemma Cderiv_const : forall c t, Cderiv (fun _ => c) t C0.
Proof. intros; split; apply derivable_pt_lim_const. Qed.
Lemma Cderiv_add : forall f g t a b, Cderiv f t a -> Cderiv g t b -> Cderiv (fun s => Cadd (f s) (g s)) t (Cadd a b).
Proof.
  intros f g t a b [F1 F2] [G1 G2]; split; cbn [Cadd re im].
  - apply (derivable_pt_lim_plus (fun s => re (f s)) (fun s => re (g s))); assumption.
  - apply (derivable_pt_lim_plus (fun s => im (f s)) (fun s => im (g s))); assumption.
Qed.
Lemma Cderiv_mul : forall f g t a b, Cderiv f t a -> Cderiv g t b ->
    Cderiv (fun s => Cmul (f s) (g s)) t (Cadd (Cmul a (g t)) (Cmul (f t) b)).
Proof.
  intros f g t a b [F1 F2] [G1 G2]; split; cbn [Cadd Cmul re im].
  - eapply dpl_eq; [|apply (derivable_pt_lim_minus (fun s => re (f s) * re (g s)) (fun s => im (f s) * im (g s)));
      [apply (derivable_pt_lim_mult (fun s => re (f s)) (fun s => re (g s)))
      |apply (derivable_pt_lim_mult (fun s => im (f s)) (fun s => im (g s)))]; eassumption]. ring.
  - eapply dpl_eq; [|apply (derivable_pt_lim_plus (fun s => re (f s) * im (g s)) (fun s => im (f s) * re (g s)));
      [apply (derivable_pt_lim_mult (fun s => re (f s)) (fun s => im (g s)))
      |apply (derivable_pt_lim_mult (fun s => im (f s)) (fun s => re (g s)))]; eassumption]. ring.
Qed.
Lemma Cderiv_conj : forall f t a, Cderiv f t a -> Cderiv (fun s => Cconj (f s)) t (Cconj a).
Proof.
  intros f t a [F1 F2]; split; cbn [Cconj re im]; [exact F1|].
  apply (derivable_pt_lim_opp (fun s => im (f s))); exact F2.
Qed.
Lemma Cderiv_scale : forall c f t a, Cderiv f t a -> Cderiv (fun s => Cmul c (f s)) t (Cmul c a).
Proof. intros c f t a F; eapply Cderiv_eq; [|apply Cderiv_mul; [apply Cderiv_const|exact F]]. cbv beta; ring. Qed.
Lemma Cderiv_scale_r : forall c f t a, Cderiv f t a -> Cderiv (fun s => Cmul (f s) c) t (Cmul a c).
Proof. intros c f t a F; eapply Cderiv_eq; [|apply Cderiv_mul; [exact F|apply Cderiv_const]]. cbv beta; ring. Qed.
Lemma Cderiv_opp : forall f t a, Cderiv f t a -> Cderiv (fun s => Copp (f s)) t (Copp a).
Proof.
  intros f t a F; eapply Cderiv_ext; [|eapply Cderiv_eq; [|apply (Cderiv_scale (Copp C1)); exact F]];
    intros; cbv beta; ring.
Qed.
Lemma Cderiv_csum : forall {A} (l : list A) f t d, (forall x, In x l -> Cderiv (f x) t (d x)) ->
    Cderiv (fun s => csum l (fun x => f x s)) t (csum l d).
Proof.
  induction l as [|x l IH]; intros f t d H; cbn [csum]; [apply Cderiv_const|].
  apply Cderiv_add; [apply H; left; reflexivity|apply IH; intros; apply H; right; assumption].
Qed.
Lemma Cderiv_RtoC : forall f t d, derivable_pt_lim f t d -> Cderiv (fun s => RtoC (f s)) t (RtoC d).
Proof. intros f t d H; split; cbn [RtoC re im]; [exact H|apply derivable_pt_lim_const]. Qed.
(** composition with an affine function *)
Lemma dpl_affine : forall f a b t l, derivable_pt_lim f (a * t + b) l -> derivable_pt_lim (fun s => f (a * s + b)) t (a * l).
Proof.
  intros f a b t l H. eapply dpl_eq; [|apply (derivable_pt_lim_comp (fun s => a * s + b) f)]; [|shelve|exact H].
  rewrite Rmult_comm; reflexivity.
  Unshelve. eapply dpl_eq; [|apply (derivable_pt_lim_plus (fun s => a * s) (fun _ => b));
    [apply (derivable_pt_lim_scal (fun s => s)), derivable_pt_lim_id|apply derivable_pt_lim_const]]. ring.
Qed.
Lemma Cderiv_affine : forall f a b t d, Cderiv f (a * t + b) d -> Cderiv (fun s => f (a * s + b)) t (Cmul (RtoC a) d).
Proof.
  intros f a b t d [F1 F2]; split; cbn [Cmul RtoC re im].
  - eapply dpl_eq; [|apply (dpl_affine (fun s => re (f s))); exact F1]. ring.
  - eapply dpl_eq; [|apply (dpl_affine (fun s => im (f s))); exact F2]. ring.
Qed.
Lemma Cderiv_expi : forall t, Cderiv Cexpi t (Cmul Ci (Cexpi t)).
Proof.
  intro t; split; cbn [Cmul Ci Cexpi re im].
  - eapply dpl_eq; [|apply derivable_pt_lim_cos]; ring.
  - eapply dpl_eq; [|apply derivable_pt_lim_sin]; ring.
Qed.
(** uniqueness and constants *)
Lemma Cderiv_unique : forall f t a b, Cderiv f t a -> Cderiv f t b -> a = b.
Proof. intros f t a b [A1 A2] [B1 B2]; apply C_ext; eapply uniqueness_limite; eassumption. Qed.
Lemma dpl_zero_const : forall f, (forall t, derivable_pt_lim f t 0) -> forall s t, f s = f t.
Proof.
  intros f H s t. assert (pr : derivable f) by (intro x; exists 0; apply H).
  apply (null_derivative_1 f pr). intro x. unfold derive_pt. destruct (pr x) as [l Hl]; simpl.
  eapply uniqueness_limite; [exact Hl|apply H].
Qed.
Lemma Cderiv_zero_const : forall f, (forall t, Cderiv f t C0) -> forall s t, f s = f t.
Proof.
  intros f H s t; apply C_ext; [apply (dpl_zero_const (fun x => re (f x)))|apply (dpl_zero_const (fun x => im (f x)))];
    intro x; apply H.
Qed.

(** ** operators *)
Lemma kderiv_mul : forall n F G t DF DG, kderiv n F t DF -> kderiv n G t DG ->
    kderiv n (fun s => kmul n (F s) (G s)) t (kadd (kmul n DF (G t)) (kmul n (F t) DG)).
Proof.
  intros n F G t DF DG HF HG x y Hx Hy; unfold kmul, kadd; rewrite <- csum_add.
  apply (Cderiv_csum (bitstrings n) (fun z s => Cmul (F s x z) (G s z y))). intros z Hz; apply Cderiv_mul; auto.
Qed.
Lemma kderiv_adj : forall n F t D, kderiv n F t D -> kderiv n (fun s => kadj (F s)) t (kadj D).
Proof. intros n F t D H x y Hx Hy; unfold kadj; apply Cderiv_conj; auto. Qed.
Lemma kderiv_const : forall n A t, kderiv n (fun _ => A) t (fun _ _ => C0).
Proof. intros n A t x y _ _; apply Cderiv_const. Qed.
Lemma kderiv_ext : forall n F G t D, (forall s, keq n (F s) (G s)) -> kderiv n F t D -> kderiv n G t D.
Proof.
  intros n F G t D E H x y Hx Hy; eapply Cderiv_ext; [|apply H; assumption]. intro s; apply E; assumption.
Qed.
Lemma kderiv_eq : forall n F t D D', keq n D D' -> kderiv n F t D -> kderiv n F t D'.
Proof. intros n F t D D' E H x y Hx Hy; rewrite <- (E x y Hx Hy); apply H; assumption. Qed.
Lemma kderiv_zero_const : forall n F, (forall t, kderiv n F t (fun _ _ => C0)) -> forall s t, keq n (F s) (F t).
Proof. intros n F H s t x y Hx Hy; apply (Cderiv_zero_const (fun r => F r x y)); intro r; apply H; assumption. Qed.
