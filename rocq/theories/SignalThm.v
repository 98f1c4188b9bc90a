(** * Outcomes on a register and gates outside its light cone (C120) *)
From Coq Require Import String List Arith Bool Reals Lia Lra ZArith Permutation.
From Verif Require Import Cplx Py PyFacts Ndarray OperatorUtils Sparse Matrices Noise Gates Apply Composite Conversion Shots Gpsr Api
  Spec SpecFacts Deriv GateSpec PropSpec NoiseSpec SampleSpec ExpectSpec GpsrSpec GateFacts CircuitFacts AlgebraFacts ApplyThm GateThm TensorFacts TensorThm
  KrausThm NoiseThm NoiseThm2 SeqThm SampleThm ShotsSpec ShotsThm ShotsThm2 ExpectThm ExpectThm2 GpsrFacts GpsrThm StructSpec PhysSpec PhysThm PhysThm2 PhysThm3 PhysThm8 PhysThm9 HeisSpec FreqSpec FreqThm SignalSpec.
Import ListNotations.
Local Open Scope nat_scope.

Lemma event_mul_l : forall n ev A x y, In x (bitstrings n) -> kmul n (event_op ev) A x y = if ev x then A x y else C0.
Proof.
  intros n ev A x y Hx. unfold kmul. rewrite (csum_single _ x); [|apply bitstrings_NoDup|exact Hx|].
  - unfold event_op. destruct (list_eq_dec Nat.eq_dec x x) as [_|N]; [|elim N; reflexivity]. destruct (ev x); ring.
  - intros z _ N. unfold event_op. destruct (list_eq_dec Nat.eq_dec x z); [congruence|ring].
Qed.
Lemma event_mul_r : forall n ev A x y, In y (bitstrings n) -> kmul n A (event_op ev) x y = if ev y then A x y else C0.
Proof.
  intros n ev A x y Hy. unfold kmul. rewrite (csum_single _ y); [|apply bitstrings_NoDup|exact Hy|].
  - unfold event_op. destruct (list_eq_dec Nat.eq_dec y y) as [_|N]; [|elim N; reflexivity]. destruct (ev y); ring.
  - intros z _ N. unfold event_op. destruct (list_eq_dec Nat.eq_dec z y); [congruence|ring].
Qed.
Lemma event_local : forall n S ev, event_on n S ev -> local_to n S (event_op ev).
Proof.
  intros n S ev H B cs ts V D x y Hx Hy. rewrite event_mul_l, event_mul_r by assumption.
  assert (E : ctrl_kernel B cs ts x y = C0 \/ ev x = ev y).
  { rewrite (ctrl_kernel_closed n) by (assumption || (apply (valid_app_r n cs); exact V)). destruct (all_ones (bits_at x cs)).
    - destruct (list_eq_dec Nat.eq_dec (overwrite x ts (bits_at y ts)) y) as [E|_]; [right|left; reflexivity].
      apply H; [exact Hx|exact Hy|]. intros q Q. rewrite <- E, nth_overwrite_notin; [reflexivity|]. intro I. apply (D q); [apply in_or_app; right; exact I|exact Q].
    - unfold kid. destruct (list_eq_dec Nat.eq_dec x y) as [->|_]; [right|left]; reflexivity. }
  destruct E as [-> | ->]; [destruct (ev x), (ev y)|]; reflexivity.
Qed.
Lemma event_trace : forall n ev out r, keq n (density_of out) r -> event_probability n ev out = re (ktrace n (kmul n (event_op ev) r)).
Proof.
  intros n ev out r E. unfold event_probability, ktrace. rewrite re_csum_rsum.
  rewrite (rsum_ext (bitstrings n) (fun x => re (kmul n (event_op ev) r x x)) (fun x => if ev x then outcome_probability out x else 0%R)).
  - induction (bitstrings n) as [|x l IH]; [reflexivity|]. cbn [filter rsum]. destruct (ev x); cbn [rsum]; rewrite IH; ring.
  - intros x Hx. rewrite event_mul_l by exact Hx. unfold outcome_probability. rewrite (E x x Hx Hx). destruct (ev x); reflexivity.
Qed.
Lemma c120_cone : forall w n vals S c c' gs gs' st ev, set_order (set_iter w) -> runnable n vals c gs -> runnable n vals c' gs' -> state_of n st ->
    light_cone S gs gs' -> event_on n S ev ->
    exists out out', run w c st vals = Ok (Some out) /\ run w c' st vals = Ok (Some out') /\ event_probability n ev out = event_probability n ev out'.
Proof.
  intros w n vals S c c' gs gs' st ev SO RN RN' HT LC EV.
  destruct (output_spec w n vals c gs st SO RN HT) as (out & E & _ & _ & _ & KD & _). destruct (output_spec w n vals c' gs' st SO RN' HT) as (out' & E' & _ & _ & _ & KD' & _).
  exists out, out'. split; [exact E|split; [exact E'|]]. rewrite (event_trace n ev out _ KD), (event_trace n ev out' _ KD'). f_equal.
  destruct RN as (_ & _ & FU & _ & FN). apply (cone_trace n vals S gs gs' LC FU FN). apply event_local. exact EV.
Qed.
Lemma cone_same : forall S gs, light_cone S gs gs.
Proof.
  intros S gs. revert S. induction gs as [|g gs IH] using rev_ind; intro S; [apply cone_nil|]. apply cone_keep. apply IH.
Qed.
Lemma cone_after : forall S gs more, (forall g q, In g more -> occupies g q -> ~ S q) -> light_cone S (gs ++ more) gs.
Proof.
  intros S gs more. induction more as [|g more IH] using rev_ind; intro D; [rewrite app_nil_r; apply cone_same|]. rewrite app_assoc. apply cone_drop.
  - intros q Q. apply (D g q); [apply in_or_app; right; left; reflexivity|exact Q].
  - apply IH. intros h q I. apply D. apply in_or_app; left; exact I.
Qed.
Lemma c120_no_signalling : forall w n vals S c c' gs more st ev, set_order (set_iter w) -> runnable n vals c gs -> runnable n vals c' (gs ++ more) -> state_of n st ->
    (forall g q, In g more -> occupies g q -> ~ S q) -> event_on n S ev ->
    exists out out', run w c st vals = Ok (Some out) /\ run w c' st vals = Ok (Some out') /\ event_probability n ev out = event_probability n ev out'.
Proof.
  intros w n vals S c c' gs more st ev SO RN RN' HT D EV.
  destruct (c120_cone w n vals S c' c (gs ++ more) gs st ev SO RN' RN HT (cone_after S gs more D) EV) as (out & out' & E & E' & P). exists out', out. auto.
Qed.
