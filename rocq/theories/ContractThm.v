(** * Circuits do not make states easier to tell apart (C125) *)
From Coq Require Import String List Arith Bool Reals Lia Lra ZArith.
From Verif Require Import Cplx Py PyFacts Ndarray OperatorUtils Sparse Matrices Noise Gates Apply Composite Conversion Shots Gpsr Api
  Spec SpecFacts Deriv GateSpec PropSpec NoiseSpec SampleSpec ExpectSpec GpsrSpec GateFacts CircuitFacts AlgebraFacts ApplyThm GateThm TensorFacts TensorThm
  KrausThm NoiseThm NoiseThm2 SeqThm SampleThm ShotsSpec ShotsThm ShotsThm2 ExpectThm ExpectThm2 GpsrFacts GpsrThm StructSpec StructThm3 PhysSpec PhysThm PhysThm2 PhysThm3 PhysThm8 HeisSpec VarSpec FreqSpec StableSpec ContractSpec.
From Verif Require Import StableThm.
From Verif Require Import VarThm.
Import ListNotations.
Local Open Scope list_scope.
Local Open Scope nat_scope.

Lemma mean_density_of : forall n K s, state_of n s -> mean n K s = mean_density n K (density_of s).
Proof. intros n K [a|b|a] HS; [|destruct HS|reflexivity]. cbn [mean density_of]. symmetry. apply mean_pure_density. Qed.

(** ** the effect of a linear map on a measurement *)
Definition unit_op (p q : list nat) : op := fun x y => Cmul (kid x p) (kid q y).
Definition dual (n : nat) (L : op -> op) (E : op) : op := fun x y => ktrace n (kmul n E (L (unit_op y x))).
Definition functional (n : nat) (phi : op -> C) : Prop :=
  (forall A B, keq n A B -> phi A = phi B) /\ (forall A B, phi (kadd A B) = Cadd (phi A) (phi B)) /\ (forall c A, phi (kscale c A) = Cmul c (phi A)).
Lemma functional_sum : forall {X} n phi (f : X -> op) l, functional n phi -> phi (ksum (map f l)) = csum l (fun a => phi (f a)).
Proof.
  intros X n phi f l (E & A & S). induction l as [|a l IH]; cbn [map ksum csum].
  - rewrite (E _ (kscale C0 kid)); [rewrite S; ring|]. intros x y _ _. unfold kscale. ring.
  - change (phi (kadd (f a) (ksum (map f l))) = Cadd (phi (f a)) (csum l (fun a => phi (f a)))). rewrite A, IH. reflexivity.
Qed.
Lemma functional_trace : forall n L E, linear n L -> functional n (fun r => ktrace n (kmul n E (L r))).
Proof.
  intros n L E (LE & LA & LS & _). split; [|split].
  - intros A B H. apply ktrace_ext, kmul_ext; [apply keq_refl|apply LE, H].
  - intros A B. rewrite <- ktrace_add. apply ktrace_ext. eapply keq_trans; [apply kmul_ext; [apply keq_refl|apply LA]|apply kmul_kadd_r].
  - intros c A. rewrite <- ktrace_scale. apply ktrace_ext. eapply keq_trans; [apply kmul_ext; [apply keq_refl|apply LS]|apply kmul_kscale_r].
Qed.
Lemma expand_units : forall n r, keq n r (ksum (map (fun y => ksum (map (fun x => kscale (r y x) (unit_op y x)) (bitstrings n))) (bitstrings n))).
Proof.
  assert (KS : forall {X} (f : X -> op) l a b, ksum (map f l) a b = csum l (fun x => f x a b)).
  { intros X f l a b. induction l as [|x l IH]; cbn [map ksum csum]; [reflexivity|]. unfold kadd. rewrite IH. reflexivity. }
  intros n r a b Ha Hb. rewrite KS.
  transitivity (csum (bitstrings n) (fun y => Cmul (kid a y) (csum (bitstrings n) (fun x => Cmul (r y x) (kid x b))))).
  - rewrite (csum_kid_l n a _ Ha). symmetry. apply (csum_kid_r n b (fun x => r a x) Hb).
  - apply csum_ext. intros y _. rewrite KS, <- csum_scale_l. apply csum_ext. intros x _. unfold kscale, unit_op. ring.
Qed.
Lemma dual_trace : forall n L E r, linear n L -> ktrace n (kmul n (dual n L E) r) = ktrace n (kmul n E (L r)).
Proof.
  intros n L E r HL. pose proof (functional_trace n L E HL) as F. pose proof F as (FE & _ & FS). cbv beta in *.
  rewrite (FE _ _ (expand_units n r)). rewrite (functional_sum n (fun r => ktrace n (kmul n E (L r))) _ _ F).
  transitivity (csum (bitstrings n) (fun y => csum (bitstrings n) (fun x => Cmul (r y x) (ktrace n (kmul n E (L (unit_op y x))))))).
  - unfold ktrace at 1. unfold kmul at 1. rewrite csum_swap. apply csum_ext. intros y _. apply csum_ext. intros x _. unfold dual. ring.
  - apply csum_ext. intros y _. rewrite (functional_sum n (fun r => ktrace n (kmul n E (L r))) _ _ F). apply csum_ext. intros x _. symmetry. apply FS.
Qed.
Lemma dual_mean : forall n L E r, linear n L -> mean_density n (dual n L E) r = mean_density n E (L r).
Proof. intros n L E r HL. unfold mean_density. rewrite dual_trace by exact HL. reflexivity. Qed.
Lemma pure_scaled : forall n a v, keq n (pure (fun x => Cmul (RtoC a) (v x))) (kscale (RtoC (a * a)) (pure v)).
Proof. intros n a v x y _ _. unfold pure, kscale. apply C_ext; simpl; ring. Qed.
Lemma norm2_nonneg' : forall n f, (0 <= norm2 n f)%R.
Proof. intros n f. unfold norm2. induction (bitstrings n) as [|x l IH]; cbn [rsum]; [lra|]. pose proof (Cnorm2_nonneg (f x)). lra. Qed.
Lemma dual_bounds : forall n L E lo hi, nice n L -> bounded_below n E lo -> bounded_above n E hi -> bounded_below n (dual n L E) lo /\ bounded_above n (dual n L E) hi.
Proof.
  intros n L E lo hi [HL HP] BL BH.
  assert (Q : forall f, (lo * norm2 n f <= re (qform n (dual n L E) f) <= hi * norm2 n f)%R).
  { intro f. change (re (qform n (dual n L E) f)) with (mean_pure n (dual n L E) f). rewrite <- mean_pure_density. change (fun x y => Cmul (f x) (Cconj (f y))) with (pure f).
    destruct (Req_dec (norm2 n f) 0) as [Z|NZ].
    - assert (E0 : keq n (pure f) (kscale (RtoC 0) (pure f))).
      { intros x y Hx Hy. unfold pure, kscale. rewrite (norm2_zero n f Z x Hx). unfold RtoC. apply C_ext; simpl; ring. }
      rewrite (mean_density_ext n _ _ _ _ (keq_refl n _) E0), mean_density_scale, Z. lra.
    - pose proof (norm2_nonneg' n f) as NN. set (c := sqrt (norm2 n f)). assert (C2 : (c * c = norm2 n f)%R) by (apply sqrt_sqrt; exact NN).
      assert (CZ : c <> 0%R) by (intro X; rewrite X in C2; lra). set (u := fun x => Cmul (RtoC (/ c)) (f x)).
      assert (NU : norm2 n u = 1%R) by (unfold u; rewrite norm2_scale, <- C2; field; exact CZ).
      assert (SU : state_op n (pure u)).
      { split; [apply pure_positive|]. unfold pure. rewrite ktrace_pure, NU. reflexivity. }
      assert (EF : keq n (pure f) (kscale (RtoC (norm2 n f)) (pure u))).
      { intros x y _ _. unfold pure, kscale, u. rewrite <- C2. apply C_ext; simpl; field; exact CZ. }
      rewrite (mean_density_ext n _ _ _ _ (keq_refl n _) EF), mean_density_scale, dual_mean by exact HL.
      destruct (HP _ SU) as [P T]. pose proof (lower_mean n E lo _ BL P T). pose proof (upper_mean n E hi _ BH P T). split; nra. }
  split; intro f; apply Q.
Qed.

(** ** the theorems *)
Lemma within_evolve : forall n eps vals gs st st' out out', Forall (usable n vals) gs -> Forall noise_ok gs -> state_of n st -> state_of n st' -> state_of n out -> state_of n out' ->
    keq n (density_of out) (evolve n vals gs (density_of st)) -> keq n (density_of out') (evolve n vals gs (density_of st')) ->
    within n eps st st' -> within n eps out out'.
Proof.
  intros n eps vals gs st st' out out' FU FN S S' So So' K K' W E [EL EH]. pose proof (nice_evolve n vals gs FU FN) as NE.
  destruct (dual_bounds n _ E 0 1 NE EL EH) as [DL DH]. pose proof (W _ (Logic.conj DL DH)) as B.
  rewrite !mean_density_of in B by assumption. rewrite !dual_mean in B by apply NE. rewrite !mean_density_of by assumption.
  rewrite (mean_density_ext n E E _ _ (keq_refl n E) K), (mean_density_ext n E E _ _ (keq_refl n E) K'). exact B.
Qed.
Lemma c125_states : forall w n vals c gs st st' eps, set_order (set_iter w) -> runnable n vals c gs -> state_of n st -> state_of n st' -> within n eps st st' ->
    exists out out', run w c st vals = Ok (Some out) /\ run w c st' vals = Ok (Some out') /\ within n eps out out'.
Proof.
  intros w n vals c gs st st' eps SO RN HT HT' W.
  destruct (output_spec w n vals c gs st SO RN HT) as (out & R1 & _ & _ & So & KE & _). destruct (output_spec w n vals c gs st' SO RN HT') as (out' & R1' & _ & _ & So' & KE' & _).
  exists out, out'. split; [exact R1|split; [exact R1'|]]. destruct RN as (_ & _ & FU & _ & FN). apply (within_evolve n eps vals gs st st' out out' FU FN HT HT' So So' KE KE' W).
Qed.
Lemma c125_expectation : forall w n vals c gs st st' eps l K lo hi mode key, set_order (set_iter w) -> flat_values vals -> runnable n vals c gs ->
    state_of n st -> physical n st -> state_of n st' -> physical n st' -> within n eps st st' ->
    readable w n vals st gs l K -> readable w n vals st' gs l K -> bounded_below n K lo -> bounded_above n K hi -> exact_mode mode ->
    exists e e', expectation w st c [l] vals mode 0 key = Ok [e] /\ expectation w st' c [l] vals mode 0 key = Ok [e'] /\ (Rabs (e - e') <= eps * (hi - lo))%R.
Proof.
  intros w n vals c gs st st' eps l K lo hi mode key SO FV RN HT PH HT' PH' W HR HR' BL BH EM.
  exists (mean_density n K (evolve n vals gs (density_of st))), (mean_density n K (evolve n vals gs (density_of st'))).
  split; [apply (exact_spec w n vals c gs st [l] [K]); auto; discriminate|]. split; [apply (exact_spec w n vals c gs st' [l] [K]); auto; discriminate|].
  destruct RN as (_ & _ & FU & _ & FN). pose proof (nice_evolve n vals gs FU FN) as NE. set (L := evolve n vals gs) in *.
  destruct (dual_bounds n L K lo hi NE BL BH) as [DL DH]. rewrite <- !(dual_mean n L K) by apply NE. set (D := dual n L K) in *.
  apply (physical_density n st HT) in PH as [P T]. apply (physical_density n st' HT') in PH' as [P' T'].
  pose proof (lower_mean n D lo _ DL P T) as A1. pose proof (upper_mean n D hi _ DH P T) as A2. pose proof (lower_mean n D lo _ DL P' T') as A3. pose proof (upper_mean n D hi _ DH P' T') as A4.
  destruct (Req_dec hi lo) as [E|NE'].
  { subst hi. replace (mean_density n D (density_of st) - mean_density n D (density_of st'))%R with 0%R by lra. rewrite Rabs_R0. lra. }
  assert (HL : (0 < hi - lo)%R) by lra. set (b := (/ (hi - lo))%R). assert (B0 : (0 < b)%R) by (apply Rinv_0_lt_compat; exact HL). assert (B1 : (b * (hi - lo) = 1)%R) by (unfold b; field; lra).
  set (E := kscale (RtoC b) (shifted D lo)).
  assert (QE : forall f, re (qform n E f) = (b * (re (qform n D f) - lo * norm2 n f))%R).
  { intro f. unfold E. rewrite qform_scale. cbn [Cmul re RtoC]. rewrite qform_shifted. simpl. ring. }
  assert (TE : test n E).
  { split; intro f; rewrite QE; pose proof (DL f); pose proof (DH f); pose proof (norm2_nonneg' n f).
    - rewrite Rmult_0_l. apply Rmult_le_pos; lra.
    - replace (1 * norm2 n f)%R with (b * (hi * norm2 n f - lo * norm2 n f))%R by (replace (hi * norm2 n f - lo * norm2 n f)%R with ((hi - lo) * norm2 n f)%R by ring; rewrite <- Rmult_assoc, B1; ring).
      apply Rmult_le_compat_l; lra. }
  assert (ME : forall r, state_op n r -> mean_density n E r = (b * (mean_density n D r - lo))%R).
  { intros r [Pr Tr]. destruct (positive_pure n r Pr) as (vs & EV). rewrite !(mean_vectors n _ r vs EV). pose proof (trace_vectors n r vs EV) as N. rewrite Tr in N. cbn in N.
    rewrite (rsum_ext vs _ (fun v => (b * (re (qform n D v) - lo * norm2 n v))%R)) by (intros; apply QE). rewrite rsum_scale. f_equal.
    transitivity (rsum vs (fun v => re (qform n D v)) - lo * rsum vs (norm2 n))%R; [|rewrite <- N; ring]. clear. induction vs as [|v vs IH]; cbn [rsum]; [ring|]. rewrite IH. ring. }
  pose proof (W E TE) as B. rewrite !mean_density_of in B by assumption. rewrite !ME in B by (split; assumption).
  replace (b * (mean_density n D (density_of st) - lo) - b * (mean_density n D (density_of st') - lo))%R with (b * (mean_density n D (density_of st) - mean_density n D (density_of st')))%R in B by ring.
  rewrite Rabs_mult, (Rabs_pos_eq b) in B by lra. set (d := Rabs (mean_density n D (density_of st) - mean_density n D (density_of st'))) in *.
  replace d with (b * (hi - lo) * d)%R by (rewrite B1; ring). replace (b * (hi - lo) * d)%R with ((hi - lo) * (b * d))%R by ring. rewrite (Rmult_comm eps). apply Rmult_le_compat_l; lra.
Qed.

(** events *)
Definition event_test (ev : list nat -> bool) : op := fun x y => if ev x then kid x y else C0.
Lemma rsum_filter : forall {A} (p : A -> bool) l f, rsum l (fun x => if p x then f x else 0%R) = rsum (filter p l) f.
Proof. intros A p l f. induction l as [|x l IH]; cbn [rsum filter]; [reflexivity|]. rewrite IH. destruct (p x); cbn [rsum]; ring. Qed.
Lemma event_test_mean : forall n ev r, mean_density n (event_test ev) r = rsum (filter ev (bitstrings n)) (fun x => re (r x x)).
Proof.
  intros n ev r. unfold mean_density, ktrace. rewrite re_csum_rsum. rewrite <- (rsum_filter ev). apply rsum_ext. intros x Hx. unfold kmul, event_test. destruct (ev x).
  - rewrite (csum_kid_l n x (fun z => r z x) Hx). reflexivity.
  - rewrite csum_zero; [reflexivity|]. intros; ring.
Qed.
Lemma event_is_test : forall n ev, test n (event_test ev).
Proof.
  intros n ev. assert (Q : forall f, re (qform n (event_test ev) f) = rsum (filter ev (bitstrings n)) (fun x => Cnorm2 (f x))).
  { intro f. change (re (qform n (event_test ev) f)) with (mean_pure n (event_test ev) f). rewrite <- mean_pure_density, event_test_mean. apply rsum_ext. intros x _. unfold Cnorm2. simpl. ring. }
  split; intro f; rewrite Q; [rewrite Rmult_0_l|rewrite Rmult_1_l; unfold norm2]; clear Q; induction (bitstrings n) as [|x l IH]; cbn [filter rsum]; try lra;
    pose proof (Cnorm2_nonneg (f x)); destruct (ev x); cbn [rsum]; lra.
Qed.
Lemma c125_outcomes : forall w n vals c gs st st' eps ev, set_order (set_iter w) -> runnable n vals c gs -> state_of n st -> state_of n st' -> within n eps st st' ->
    exists out out', run w c st vals = Ok (Some out) /\ run w c st' vals = Ok (Some out') /\
      (Rabs (event_probability n ev out - event_probability n ev out') <= eps)%R.
Proof.
  intros w n vals c gs st st' eps ev SO RN HT HT' W.
  destruct (output_spec w n vals c gs st SO RN HT) as (out & R1 & _ & _ & So & KE & _). destruct (output_spec w n vals c gs st' SO RN HT') as (out' & R1' & _ & _ & So' & KE' & _).
  exists out, out'. split; [exact R1|split; [exact R1'|]]. destruct RN as (_ & _ & FU & _ & FN).
  pose proof (within_evolve n eps vals gs st st' out out' FU FN HT HT' So So' KE KE' W _ (event_is_test n ev)) as B.
  rewrite !mean_density_of, !event_test_mean in B by assumption. exact B.
Qed.

(** amplitudes *)
Lemma real_combination : forall n E u v, exists B, forall a b, re (qform n E (fun x => Cadd (Cmul (RtoC a) (u x)) (Cmul (RtoC b) (v x)))) = (a * a * re (qform n E u) + b * b * re (qform n E v) + a * b * B)%R.
Proof.
  intros n E u v. exists (re (Cadd (inner_product n u (apply_kernel n E v)) (inner_product n v (apply_kernel n E u)))). intros a b.
  assert (AK : forall x, apply_kernel n E (fun x => Cadd (Cmul (RtoC a) (u x)) (Cmul (RtoC b) (v x))) x = Cadd (Cmul (RtoC a) (apply_kernel n E u x)) (Cmul (RtoC b) (apply_kernel n E v x))).
  { intro x. unfold apply_kernel. rewrite <- !csum_scale_l, <- csum_add. apply csum_ext. intros; ring. }
  assert (Q : qform n E (fun x => Cadd (Cmul (RtoC a) (u x)) (Cmul (RtoC b) (v x))) =
    Cadd (Cadd (Cmul (RtoC (a * a)) (qform n E u)) (Cmul (RtoC (b * b)) (qform n E v))) (Cmul (RtoC (a * b)) (Cadd (inner_product n u (apply_kernel n E v)) (inner_product n v (apply_kernel n E u))))).
  { unfold qform, inner_product. rewrite <- csum_add. rewrite <- !csum_scale_l, <- !csum_add. apply csum_ext. intros x _. rewrite AK. apply C_ext; simpl; ring. }
  rewrite Q. simpl. ring.
Qed.
Lemma norm_combination : forall n u v, exists B, forall a b, norm2 n (fun x => Cadd (Cmul (RtoC a) (u x)) (Cmul (RtoC b) (v x))) = (a * a * norm2 n u + b * b * norm2 n v + a * b * B)%R.
Proof.
  intros n u v. destruct (real_combination n kid u v) as (B & H). exists B. intros a b. specialize (H a b). rewrite !qform_id in H. exact H.
Qed.
Lemma norm2_ext' : forall n f g, (forall x, In x (bitstrings n) -> Cnorm2 (f x) = Cnorm2 (g x)) -> norm2 n f = norm2 n g.
Proof. intros n f g H. apply rsum_ext. exact H. Qed.
Lemma amplitudes_bound : forall n E u v eps, test n E -> norm2 n u = 1%R -> norm2 n v = 1%R -> (0 < eps)%R -> (norm2 n (fun x => Csub (u x) (v x)) <= eps * eps)%R ->
    (re (qform n E u) - re (qform n E v) <= eps)%R.
Proof.
  intros n E u v eps [EL EH] NU NV HE D. destruct (real_combination n E u v) as (B & HB). destruct (norm_combination n u v) as (N & HN).
  assert (D' : (2 - N <= eps * eps)%R).
  { rewrite <- (norm2_ext n (fun x => Cadd (Cmul (RtoC 1) (u x)) (Cmul (RtoC (-1)) (v x)))) in D by (intros x _; apply C_ext; simpl; ring). rewrite HN, NU, NV in D. lra. }
  assert (DP : (0 <= 2 - N)%R) by (pose proof (norm2_nonneg' n (fun x => Cadd (Cmul (RtoC 1) (u x)) (Cmul (RtoC (-1)) (v x)))) as X; rewrite HN, NU, NV in X; lra).
  set (t := sqrt (2 / eps)). assert (P : (0 < 2 / eps)%R) by (apply Rdiv_lt_0_compat; lra). assert (TT : (t * t = 2 / eps)%R) by (apply sqrt_sqrt; lra).
  assert (T0 : (0 < t)%R) by (apply sqrt_lt_R0; exact P). set (s := (/ t)%R). assert (ST : (s * t = 1)%R) by (unfold s; field; lra). assert (SS : (s * s = eps / 2)%R).
  { unfold s. replace (/ t * / t)%R with (/ (t * t))%R by (field; lra). rewrite TT. field. lra. }
  set (a := (s + t)%R). set (b := (s - t)%R). set (qu := re (qform n E u)) in *. set (qv := re (qform n E v)) in *.
  pose proof (EH (fun x => Cadd (Cmul (RtoC a) (u x)) (Cmul (RtoC b) (v x)))) as U. pose proof (EL (fun x => Cadd (Cmul (RtoC b) (u x)) (Cmul (RtoC a) (v x)))) as V.
  rewrite HB, HN, NU, NV in U. rewrite HB, HN, NU, NV in V.
  assert (AA : (a * a - b * b = 4)%R) by (unfold a, b; replace ((s + t) * (s + t) - (s - t) * (s - t))%R with (4 * (s * t))%R by ring; rewrite ST; ring).
  assert (AB : (a * b = eps / 2 - 2 / eps)%R) by (unfold a, b; replace ((s + t) * (s - t))%R with (s * s - t * t)%R by ring; rewrite SS, TT; reflexivity).
  assert (A2 : (a * a + b * b = eps + 4 / eps)%R) by (unfold a, b; replace ((s + t) * (s + t) + (s - t) * (s - t))%R with (2 * (s * s) + 2 * (t * t))%R by ring; rewrite SS, TT; field; lra).
  assert (X : (4 * (qu - qv) <= a * a + b * b + a * b * N)%R).
  { replace (4 * (qu - qv))%R with ((a * a * qu + b * b * qv + a * b * B) - (b * b * qu + a * a * qv + b * a * B))%R; [lra|].
    transitivity ((a * a - b * b) * (qu - qv))%R; [ring|]. rewrite AA. ring. }
  rewrite A2, AB in X. set (z := (2 - N)%R) in *. replace N with (2 - z)%R in X by (unfold z; ring).
  assert (Y : (eps + 4 / eps + (eps / 2 - 2 / eps) * (2 - z) = 2 * eps - eps / 2 * z + (2 / eps) * z)%R) by (field; lra). rewrite Y in X.
  assert (Z1 : (2 / eps * z <= 2 * eps)%R).
  { replace (2 * eps)%R with (2 / eps * (eps * eps))%R by (field; lra). apply Rmult_le_compat_l; [apply Rlt_le, Rdiv_lt_0_compat; lra|exact D']. }
  assert (Z2 : (0 <= eps / 2 * z)%R) by (apply Rmult_le_pos; lra). lra.
Qed.
Lemma c125_amplitudes : forall n a b eps, is_state n a -> is_state n b -> physical n (SDense a) -> physical n (SDense b) -> (0 < eps)%R ->
    (norm2 n (fun x => Csub (amp a x) (amp b x)) <= eps * eps)%R -> within n eps (SDense a) (SDense b).
Proof.
  intros n a b eps _ _ PA PB HE D E TE. cbn [physical] in PA, PB. cbn [mean]. unfold mean_pure. fold (qform n E (amp a)). fold (qform n E (amp b)). apply Rabs_le. split.
  - enough (re (qform n E (amp b)) - re (qform n E (amp a)) <= eps)%R by lra. apply (amplitudes_bound n E _ _ eps TE PB PA HE).
    rewrite <- (norm2_ext' n (fun x => Csub (amp a x) (amp b x))); [exact D|]. intros x _. unfold Cnorm2. simpl. ring.
  - apply (amplitudes_bound n E _ _ eps TE PA PB HE D).
Qed.
