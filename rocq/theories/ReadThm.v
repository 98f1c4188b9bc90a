(** * Proofs for C128: qubits that are only read *)
From Coq Require Import String List Arith Bool Reals Lia Lra ZArith Setoid Morphisms.
From Verif Require Import Cplx Py PyFacts Ndarray OperatorUtils Sparse Matrices Noise Gates Apply Composite Conversion Shots Gpsr Api
  Spec SpecFacts GateSpec PropSpec NoiseSpec SampleSpec ExpectSpec GpsrSpec GateFacts CircuitFacts AlgebraFacts ApplyThm GateThm
  ShotsSpec HeisSpec KrausThm NoiseThm ExpectThm ExpectThm2 GpsrFacts GpsrThm StructSpec PhysSpec PhysThm PhysThm2 FreqSpec FreqThm SignalSpec SignalThm ReadSpec GpsrThm2.
Import ListNotations.
Local Open Scope nat_scope.

Definition diagonal_op (m : nat) (M : op) : Prop := forall a b, In a (bitstrings m) -> In b (bitstrings m) -> a <> b -> M a b = C0.
Definition commutes (n : nat) (P K : op) : Prop := keq n (kmul n P K) (kmul n K P).

Lemma event_adjoint : forall n ev, keq n (kadj (event_op ev)) (event_op ev).
Proof.
  intros n ev x y _ _. unfold kadj, event_op. destruct (list_eq_dec Nat.eq_dec y x) as [E|N], (list_eq_dec Nat.eq_dec x y) as [E'|N']; try congruence.
  - rewrite E. destruct (ev x); apply C_ext; simpl; ring.
  - apply C_ext; simpl; ring.
Qed.
Lemma commutes_adjoint : forall n ev K, commutes n (event_op ev) K -> commutes n (event_op ev) (kadj K).
Proof.
  intros n ev K H. unfold commutes in *. rewrite <- (event_adjoint n ev) at 1. rewrite <- kadj_mul, <- H, kadj_mul, (event_adjoint n ev). apply keq_refl.
Qed.
Lemma diagonal_commutes : forall n ev M cs ts, valid_qubits n (cs ++ ts) -> diagonal_op (List.length ts) M -> commutes n (event_op ev) (ctrl_kernel M cs ts).
Proof.
  intros n ev M cs ts V D x y Hx Hy. rewrite event_mul_l, event_mul_r by assumption.
  assert (E : ctrl_kernel M cs ts x y = C0 \/ x = y).
  { pose proof (valid_app_r n cs ts V) as VT. rewrite (ctrl_kernel_closed n) by assumption. destruct (all_ones (bits_at x cs)).
    - destruct (list_eq_dec Nat.eq_dec (overwrite x ts (bits_at y ts)) y) as [E|_]; [|left; reflexivity].
      destruct (list_eq_dec Nat.eq_dec (bits_at x ts) (bits_at y ts)) as [B|N]; [right|left; apply D; [apply (bits_at_bits n); exact Hx|apply (bits_at_bits n); exact Hy|exact N]].
      rewrite <- E, <- B, overwrite_self; [reflexivity|]. intros q Q. rewrite (bitstrings_length n x Hx). destruct VT as [_ F]. rewrite Forall_forall in F. apply F. exact Q.
    - unfold kid. destruct (list_eq_dec Nat.eq_dec x y) as [->|_]; [right|left]; reflexivity. }
  destruct E as [-> | ->]; [destruct (ev x), (ev y)|]; reflexivity.
Qed.
Lemma reading_commutes : forall n (S : nat -> Prop) ev M cs ts, event_on n S ev -> valid_qubits n (cs ++ ts) -> (forall q, In q ts -> ~ S q) -> commutes n (event_op ev) (ctrl_kernel M cs ts).
Proof.
  intros n S ev M cs ts H V D x y Hx Hy. rewrite event_mul_l, event_mul_r by assumption.
  assert (E : ctrl_kernel M cs ts x y = C0 \/ ev x = ev y).
  { rewrite (ctrl_kernel_closed n) by (assumption || (apply (valid_app_r n cs); exact V)). destruct (all_ones (bits_at x cs)).
    - destruct (list_eq_dec Nat.eq_dec (overwrite x ts (bits_at y ts)) y) as [E|_]; [right|left; reflexivity].
      apply H; [exact Hx|exact Hy|]. intros q Q. rewrite <- E, nth_overwrite_notin; [reflexivity|]. intro I. exact (D q I Q).
    - unfold kid. destruct (list_eq_dec Nat.eq_dec x y) as [->|_]; [right|left]; reflexivity. }
  destruct E as [-> | ->]; [destruct (ev x), (ev y)|]; reflexivity.
Qed.

(** keeping only the part of a matrix where the event holds *)
Definition kept (n : nat) (ev : list nat -> bool) (r : op) : op := kmul n (kmul n (event_op ev) r) (event_op ev).
Lemma kept_entry : forall n ev r x y, In x (bitstrings n) -> In y (bitstrings n) -> kept n ev r x y = if ev x && ev y then r x y else C0.
Proof.
  intros n ev r x y Hx Hy. unfold kept. rewrite event_mul_r, event_mul_l by assumption. destruct (ev x), (ev y); reflexivity.
Qed.
Lemma kept_sandwich : forall n ev K r, commutes n (event_op ev) K -> keq n (kept n ev (sandwiched n K r)) (sandwiched n K (kept n ev r)).
Proof.
  intros n ev K r H. pose proof (commutes_adjoint n ev K H) as H'. unfold commutes in *. unfold kept, sandwiched.
  set (P := event_op ev) in *. rewrite <- !kmul_assoc, H, !kmul_assoc, <- H'. apply keq_refl.
Qed.
Lemma kept_ext : forall n ev r r', keq n r r' -> keq n (kept n ev r) (kept n ev r').
Proof. intros n ev r r' E x y Hx Hy. rewrite !kept_entry by assumption. rewrite (E x y Hx Hy). reflexivity. Qed.
Lemma kept_kraus : forall n ev q ks r, (forall k, In k ks -> commutes n (event_op ev) (ctrl_kernel (entry k) [] [q])) ->
    keq n (kept n ev (kraus_sum n q ks r)) (kraus_sum n q ks (kept n ev r)).
Proof.
  intros n ev q ks r H. unfold kraus_sum. induction ks as [|k ks IH].
  - intros x y Hx Hy. rewrite kept_entry by assumption. cbn [map ksum]. destruct (ev x && ev y); reflexivity.
  - cbn [map ksum]. intros x y Hx Hy. rewrite kept_entry by assumption. pose proof (kept_sandwich n ev _ r (H k (or_introl eq_refl)) x y Hx Hy) as E1.
    pose proof (IH (fun j J => H j (or_intror J)) x y Hx Hy) as E2. rewrite kept_entry in E1, E2 by assumption. cbn beta. rewrite <- E1, <- E2. destruct (ev x && ev y); [reflexivity|]. apply C_ext; simpl; ring.
Qed.
Lemma kept_channels : forall n ev q l r, (forall i k, In i l -> In k (kraus_of i) -> commutes n (event_op ev) (ctrl_kernel (entry k) [] [q])) ->
    keq n (kept n ev (channels n [q] (Some l) r)) (channels n [q] (Some l) (kept n ev r)).
Proof.
  intros n ev q l r H. cbn [channels hd]. revert r. induction l as [|i l IH]; intro r; [apply keq_refl|]. cbn [fold_left].
  eapply keq_trans; [apply IH; intros j k J; apply H; right; exact J|].
  change (keq n (channels n [q] (Some l) (kept n ev (kraus_sum n q (kraus_of i) r))) (channels n [q] (Some l) (kraus_sum n q (kraus_of i) (kept n ev r)))).
  apply (linear_channels n [q] (Some l)). apply kept_kraus. intros k K. apply (H i k); [left; reflexivity|exact K].
Qed.

(** ** the gates and channels *)
Lemma mat2_diagonal : forall a d, diagonal_op 1 (mat2 a C0 C0 d).
Proof. intros a d x y _ _ N. destruct x as [|[|[|?]] [|? ?]], y as [|[|[|?]] [|? ?]]; try reflexivity; elim N; reflexivity. Qed.
Lemma diagonal_matrix : forall vals g M, gate_matrix vals g M -> diagonal_gate g -> diagonal_op (List.length (target g)) M.
Proof.
  intros vals g M HM D. unfold diagonal_gate in D. destruct HM as [name M C N L I|C N L|name R_ t C N L A I|t C L A]; rewrite L.
  - rewrite C, N in D. destruct D as [[_ D]|[[D _]|D]]; try discriminate. simpl in I, D.
    decompose [or] I; try contradiction; match goal with H : (_, _) = (_, _) |- _ => injection H as <- <- end; try (apply mat2_diagonal); exfalso; decompose [or] D; try contradiction; discriminate.
  - rewrite C, N in D. destruct D as [[_ D]|[[D _]|D]]; try discriminate. simpl in D. exfalso; decompose [or] D; try contradiction; discriminate.
  - rewrite C, N in D. destruct D as [[D _]|[[_ D]|D]]; try discriminate. simpl in I.
    decompose [or] I; try contradiction; match goal with H : (_, _) = (_, _) |- _ => injection H as <- <- end; try discriminate. apply mat2_diagonal.
  - apply mat2_diagonal.
Qed.

Lemma dephasing_diagonal : forall i k, dephasing i -> In k (kraus_of i) -> diagonal_op 1 (entry k).
Proof.
  intros [ty pr] k D K a b Ha Hb N. unfold dephasing in D. cbn [ntype] in D. unfold kraus_of, kraus in K. cbn [ntype error_probability] in K.
  destruct D as [-> | ->]; destruct pr as [p|?]; try contradiction K; unfold PhaseFlip, PhaseDamping in K; destruct (bad_prob p); try contradiction K; destruct K as [<-|[<-|[]]];
    unfold m_I, m_Z; rewrite ?entry_sq, ?entry_matrix2 by assumption; rewrite (mat2_diagonal _ _ a b Ha Hb N); apply C_ext; simpl; ring.
Qed.
Lemma kept_step : forall n vals (S : nat -> Prop) ev g r, usable n vals g -> noise_ok g -> event_on n S ev -> only_reads S g ->
    keq n (kept n ev (step n vals g r)) (step n vals g (kept n ev r)).
Proof.
  intros n vals S ev g r HU HN EV RD. destruct (step_form n vals g HU HN) as (M & cs & ts & HG & _ & F).
  pose proof (go_qubits _ _ _ _ _ _ HG) as V. pose proof (go_target _ _ _ _ _ _ HG) as ET. pose proof (go_matrix _ _ _ _ _ _ HG) as GM.
  assert (CU : commutes n (event_op ev) (gate_op M cs ts)).
  { destruct RD as [D|[D _]]; [apply (reading_commutes n S); [exact EV|exact V|rewrite <- ET; exact D]|apply diagonal_commutes; [exact V|rewrite <- ET; apply (diagonal_matrix vals); assumption]]. }
  destruct F as [(_ & E)|(q & l & EN & ETS & Hq & _ & E)]; rewrite !E; [apply kept_sandwich; exact CU|].
  eapply keq_trans; [apply kept_channels|apply (linear_channels n [q] (Some l)), kept_sandwich; exact CU].
  intros i k I K. assert (VQ : valid_qubits n ([] ++ [q])) by (split; [repeat constructor; simpl; tauto|repeat constructor; exact Hq]).
  destruct RD as [D|[_ D]].
  - apply (reading_commutes n S); [exact EV|exact VQ|]. rewrite ET, ETS in D. exact D.
  - rewrite EN in D. rewrite Forall_forall in D. apply diagonal_commutes; [exact VQ|]. apply (dephasing_diagonal i); [apply D; exact I|exact K].
Qed.
Lemma step_ext : forall n vals g r r', keq n r r' -> keq n (step n vals g r) (step n vals g r').
Proof. intros n vals g r r' E. apply (evolve_ext n vals [g]). exact E. Qed.
Lemma kept_evolve : forall n vals (S : nat -> Prop) ev gs, Forall (usable n vals) gs -> Forall noise_ok gs -> event_on n S ev -> Forall (only_reads S) gs -> forall r,
    keq n (kept n ev (evolve n vals gs r)) (evolve n vals gs (kept n ev r)).
Proof.
  intros n vals S ev gs FU FN EV FR. induction FU as [|g gs HU FU IH]; intro r; [apply keq_refl|]. inversion FN; subst. inversion FR; subst. cbn [evolve].
  eapply keq_trans; [apply IH; assumption|]. apply evolve_ext. apply (kept_step n vals S); assumption.
Qed.

Lemma collapsed_events : forall n ev out out' also, collapsed n ev out out' -> event_probability n also out' = event_probability n (fun x => ev x && also x) out.
Proof.
  intros n ev out out' also H. unfold event_probability. assert (X : forall l, (forall x, In x l -> In x (bitstrings n)) -> rsum (filter also l) (outcome_probability out') = rsum (filter (fun x => ev x && also x) l) (outcome_probability out)).
  { induction l as [|x l IH]; intro L; [reflexivity|]. cbn [filter]. assert (Hx : In x (bitstrings n)) by (apply L; left; reflexivity).
    assert (D : outcome_probability out' x = if ev x then outcome_probability out x else 0%R) by (unfold outcome_probability; rewrite (H x x Hx Hx); destruct (ev x); reflexivity).
    pose proof (IH (fun y Y => L y (or_intror Y))) as IH'. destruct (ev x), (also x); cbn [andb rsum]; try rewrite D; rewrite IH'; try reflexivity. ring. }
  apply X. auto.
Qed.
(** measuring the qubits before or after the circuit *)
Lemma c128_collapse : forall w n vals (S : nat -> Prop) c gs st st' ev, set_order (set_iter w) -> runnable n vals c gs -> Forall (only_reads S) gs ->
    state_of n st -> state_of n st' -> event_on n S ev -> collapsed n ev st st' ->
    exists out out', run w c st vals = Ok (Some out) /\ run w c st' vals = Ok (Some out') /\ collapsed n ev out out' /\
      forall also, event_probability n also out' = event_probability n (fun x => ev x && also x) out.
Proof.
  intros w n vals S c gs st st' ev SO RN FR HT HT' EV CO.
  destruct (output_spec w n vals c gs st SO RN HT) as (out & E & _ & _ & _ & KD & _). destruct (output_spec w n vals c gs st' SO RN HT') as (out' & E' & _ & _ & _ & KD' & _).
  exists out, out'. split; [exact E|split; [exact E'|]].
  enough (CD : collapsed n ev out out') by (split; [exact CD|]; intro also; apply collapsed_events; exact CD). destruct RN as (_ & _ & FU & _ & FN). intros x y Hx Hy. rewrite (KD' x y Hx Hy), (KD x y Hx Hy), <- (kept_entry n ev _ x y Hx Hy).
  rewrite (kept_evolve n vals S ev gs FU FN EV FR _ x y Hx Hy). apply evolve_ext; [|exact Hx|exact Hy]. intros a b Ha Hb. rewrite kept_entry by assumption. apply CO; assumption.
Qed.
(** the trace of the kept part is the probability of the event *)
Lemma event_kept : forall n ev st, event_probability n ev st = re (ktrace n (kept n ev (density_of st))).
Proof.
  intros n ev st. unfold event_probability, ktrace. rewrite re_csum_rsum. rewrite (rsum_ext (bitstrings n) (fun x => re (kept n ev (density_of st) x x)) (fun x => if ev x then outcome_probability st x else 0%R)).
  - induction (bitstrings n) as [|x l IH]; [reflexivity|]. cbn [filter rsum]. destruct (ev x); cbn [rsum]; rewrite IH; ring.
  - intros x Hx. rewrite kept_entry by assumption. unfold outcome_probability. destruct (ev x); reflexivity.
Qed.
Lemma evolve_trace : forall n vals gs, Forall (usable n vals) gs -> Forall noise_ok gs -> forall r, ktrace n (evolve n vals gs r) = ktrace n r.
Proof.
  intros n vals gs FU. induction FU as [|g gs HU FU IH]; intros FN r; [reflexivity|]. inversion FN; subst. cbn [evolve]. rewrite IH by assumption. apply step_trace; assumption.
Qed.
Lemma c128_unchanged : forall w n vals (S : nat -> Prop) c gs st ev, set_order (set_iter w) -> runnable n vals c gs -> Forall (only_reads S) gs -> state_of n st -> event_on n S ev ->
    exists out, run w c st vals = Ok (Some out) /\ event_probability n ev out = event_probability n ev st.
Proof.
  intros w n vals S c gs st ev SO RN FR HT EV. destruct (output_spec w n vals c gs st SO RN HT) as (out & E & _ & _ & _ & KD & _). exists out. split; [exact E|].
  destruct RN as (_ & _ & FU & _ & FN). rewrite !event_kept. f_equal. transitivity (ktrace n (kept n ev (evolve n vals gs (density_of st)))); [apply ktrace_ext, kept_ext, KD|].
  transitivity (ktrace n (evolve n vals gs (kept n ev (density_of st)))); [apply ktrace_ext; apply (kept_evolve n vals S); assumption|]. apply evolve_trace; assumption.
Qed.
Lemma c128_later : forall w n vals (S : nat -> Prop) c c' gs more st ev, set_order (set_iter w) -> runnable n vals c gs -> runnable n vals c' (gs ++ more) -> Forall (only_reads S) more ->
    state_of n st -> event_on n S ev ->
    exists out out', run w c st vals = Ok (Some out) /\ run w c' st vals = Ok (Some out') /\ event_probability n ev out' = event_probability n ev out.
Proof.
  intros w n vals S c c' gs more st ev SO RN RN' FR HT EV.
  destruct (output_spec w n vals c gs st SO RN HT) as (out & E & _ & _ & _ & KD & _). destruct (output_spec w n vals c' (gs ++ more) st SO RN' HT) as (out' & E' & _ & _ & _ & KD' & _).
  exists out, out'. split; [exact E|split; [exact E'|]]. destruct RN' as (_ & _ & FU & _ & FN). apply Forall_app in FU as [_ FU]. apply Forall_app in FN as [_ FN].
  rewrite !event_kept. f_equal. rewrite GpsrThm2.evolve_app in KD'. transitivity (ktrace n (kept n ev (evolve n vals more (evolve n vals gs (density_of st))))); [apply ktrace_ext, kept_ext, KD'|].
  transitivity (ktrace n (evolve n vals more (kept n ev (evolve n vals gs (density_of st))))); [apply ktrace_ext; apply (kept_evolve n vals S); assumption|].
  rewrite evolve_trace by assumption. apply ktrace_ext, kept_ext, keq_sym, KD.
Qed.
