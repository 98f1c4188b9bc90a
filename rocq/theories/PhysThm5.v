(** * Reduced states: qubits a circuit does not touch *)
From Coq Require Import String List Arith Bool Reals Lia Lra ZArith.
From Verif Require Import Cplx Py PyFacts Ndarray OperatorUtils Sparse Matrices Noise Gates Apply Composite Conversion Shots Gpsr Api
  Spec SpecFacts Deriv GateSpec PropSpec NoiseSpec SampleSpec ExpectSpec GpsrSpec GateFacts CircuitFacts AlgebraFacts ApplyThm GateThm TensorFacts TensorThm
  KrausThm NoiseThm NoiseThm2 SeqThm SampleThm ShotsSpec ShotsThm ExpectThm ExpectThm2 GpsrFacts GpsrThm StructSpec PhysSpec PhysThm PhysThm2.
Import ListNotations.
Local Open Scope nat_scope.

(** [K'] is [K] on the first [m] qubits and the identity on the last [k] *)
Definition extends (m k : nat) (K' K : op) : Prop :=
  forall a b e d, In a (bitstrings m) -> In b (bitstrings m) -> In e (bitstrings k) -> In d (bitstrings k) -> K' (a ++ e) (b ++ d) = Cmul (K a b) (kid e d).
Lemma kid_app : forall a b e d : list nat, length a = length b -> kid (a ++ e) (b ++ d) = Cmul (kid a b) (kid e d).
Proof.
  intros a b e d L. unfold kid. destruct (list_eq_dec Nat.eq_dec (a ++ e) (b ++ d)) as [E|N].
  - destruct (app_inv_len _ _ _ _ L E) as [-> ->]. destruct (list_eq_dec Nat.eq_dec b b); [|contradiction]. destruct (list_eq_dec Nat.eq_dec d d); [ring|contradiction].
  - destruct (list_eq_dec Nat.eq_dec a b) as [->|]; [|ring]. destruct (list_eq_dec Nat.eq_dec e d) as [->|]; [contradiction|ring].
Qed.
Lemma extends_id : forall m k, extends m k kid kid.
Proof. intros m k a b e d Ha Hb _ _. apply kid_app. rewrite (bitstrings_length m a Ha), (bitstrings_length m b Hb). reflexivity. Qed.
Lemma bits_at_app_l : forall x e qs, (forall q, In q qs -> q < length x) -> bits_at (x ++ e) qs = bits_at x qs.
Proof. intros x e qs H. apply map_ext_in; intros q Hq. apply app_nth1, H, Hq. Qed.
Lemma extends_kernel : forall m k M cs ts, valid_qubits m (cs ++ ts) -> extends m k (ctrl_kernel M cs ts) (ctrl_kernel M cs ts).
Proof.
  intros m k M cs ts [_ V] a b e d Ha Hb He Hd. pose proof (bitstrings_length m a Ha) as La. pose proof (bitstrings_length m b Hb) as Lb.
  rewrite Forall_forall in V. unfold ctrl_kernel.
  rewrite (bits_at_app_l a e cs) by (intros q Q; rewrite La; apply V, in_or_app; auto). destruct (all_ones (bits_at a cs)).
  - rewrite <- csum_scale_r. apply csum_ext; intros z Hz.
    rewrite (bits_at_app_l a e ts) by (intros q Q; rewrite La; apply V, in_or_app; auto).
    rewrite overwrite_app_l by (intros q Q; rewrite La; apply V, in_or_app; auto). rewrite kid_app by (rewrite overwrite_length; lia). ring.
  - apply kid_app; lia.
Qed.
Lemma extends_add : forall m k A' A B' B, extends m k A' A -> extends m k B' B -> extends m k (kadd A' B') (kadd A B).
Proof. intros m k A' A B' B H1 H2 a b e d Ha Hb He Hd. unfold kadd. rewrite H1, H2 by assumption. ring. Qed.
Lemma extends_scale : forall m k c A' A, extends m k A' A -> extends m k (kscale c A') (kscale c A).
Proof. intros m k c A' A H a b e d Ha Hb He Hd. unfold kscale. rewrite H by assumption. ring. Qed.
Lemma extends_sum : forall m k Ks' Ks, Forall2 (extends m k) Ks' Ks -> extends m k (ksum Ks') (ksum Ks).
Proof.
  intros m k Ks' Ks F. induction F as [|A B Ks' Ks H F IH]; [intros a b e d _ _ _ _; cbn [ksum]; ring|]. apply (extends_add m k A B (ksum Ks') (ksum Ks) H IH).
Qed.
Lemma extends_mul : forall m k A' A B' B, extends m k A' A -> extends m k B' B -> extends m k (kmul (m + k) A' B') (kmul m A B).
Proof.
  intros m k A' A B' B H1 H2 a b e d Ha Hb He Hd. unfold kmul. rewrite csum_bits_app, <- csum_scale_r. apply csum_ext; intros u Hu.
  rewrite (csum_ext _ _ (fun c => Cmul (kid e c) (Cmul (Cmul (A a u) (B u b)) (kid c d)))).
  - rewrite (csum_kid_l k e (fun c => Cmul (Cmul (A a u) (B u b)) (kid c d)) He). reflexivity.
  - intros c Hc. rewrite H1, H2 by assumption. ring.
Qed.
Lemma extends_prod : forall m k Ks' Ks, Forall2 (extends m k) Ks' Ks -> extends m k (kprod (m + k) Ks') (kprod m Ks).
Proof. intros m k Ks' Ks F. induction F as [|A B Ks' Ks H F IH]; [apply extends_id|]. cbn [kprod]. apply extends_mul; assumption. Qed.
Lemma valid_more : forall m k qs, valid_qubits m qs -> valid_qubits (m + k) qs.
Proof. intros m k qs [N F]. split; [exact N|]. eapply Forall_impl; [|exact F]. cbn beta. intros; lia. Qed.
Lemma gate_on_more : forall m k vals g M cs ts, gate_on m vals g M cs ts -> gate_on (m + k) vals g M cs ts.
Proof. intros m k vals g M cs ts [A B D E]. split; auto. apply valid_more, E. Qed.
Lemma extends_commuting : forall m k Ks' Ks, Forall2 (extends m k) Ks' Ks -> commuting m Ks -> commuting (m + k) Ks'.
Proof.
  intros m k Ks' Ks F. induction F as [|A' A Ks' Ks H F IH]; intro CM; inversion CM as [|? ? C1' C2']; subst; constructor; [|auto].
  clear IH CM C2'. induction F as [|B' B Ks' Ks HB F IH]; [constructor|]. inversion C1'; subst. constructor; [|auto].
  intros x y Hx Hy. destruct (bitstrings_app_inv m k x Hx) as (a & e & -> & Ha & He), (bitstrings_app_inv m k y Hy) as (b & d & -> & Hb & Hd).
  rewrite (extends_mul m k A' A B' B H HB a b e d), (extends_mul m k B' B A' A HB H a b e d) by assumption. f_equal. auto.
Qed.
Lemma extends_sequences : forall m k sq Ks' Ks, Forall2 (extends m k) Ks' Ks -> sequences m sq Ks -> sequences (m + k) sq Ks'.
Proof.
  intros m k sq Ks' Ks F [E|[NE CM]]; [left; exact E|right]. split; [|eapply extends_commuting; eassumption]. intros ->. inversion F; subst. contradiction.
Qed.
Lemma denotes_more : forall w m k vals sq o K, denotes w m vals sq o K -> exists K', denotes w (m + k) vals sq o K' /\ extends m k K' K.
Proof.
  intros w m k vals sq.
  assert (LIST : forall l Ks, Forall2 (fun o K => exists K', denotes w (m + k) vals sq o K' /\ extends m k K' K) l Ks ->
    exists Ks', Forall2 (denotes w (m + k) vals sq) l Ks' /\ Forall2 (extends m k) Ks' Ks).
  { intros l Ks F. induction F as [|o K l Ks (K' & D & E) F (Ks' & D' & E')]; [exists []; split; constructor|]. exists (K' :: Ks'). split; constructor; assumption. }
  apply denotes_induction.
  - intros g M cs ts HG HD HN. exists (gate_op M cs ts). split; [constructor; auto; apply gate_on_more, HG|]. apply extends_kernel, (go_qubits _ _ _ _ _ _ HG).
  - intros g K (u & cs & H1 & H2 & H3 & H4 & H5 & ->) HN. exists (gate_op (entry u) cs (target g)). split.
    + apply den_matrix; [|exact HN]. exists u, cs. repeat (split; [assumption|]). split; [apply valid_more, H4|auto].
    + apply extends_kernel, H4.
  - intros l Ks NE F. destruct (LIST l Ks F) as (Ks' & D & E). exists (ksum Ks'). split; [constructor; assumption|apply extends_sum, E].
  - intros o K p c (K' & D & E) Ec. exists (kscale (RtoC c) K'). split; [constructor; assumption|apply extends_scale, E].
  - intros l Ks p c ES F Ec. destruct (LIST l Ks F) as (Ks' & D & E). exists (kscale (RtoC c) (kprod (m + k) Ks')).
    split; [apply den_multiple; [eapply extends_sequences; eassumption|assumption|assumption]|apply extends_scale, extends_prod, E].
  - intros l Ks ES F. destruct (LIST l Ks F) as (Ks' & D & E). exists (kprod (m + k) Ks'). split; [constructor; [eapply extends_sequences; eassumption|assumption]|apply extends_prod, E].
  - intros mm l fp Ks ES F. destruct (LIST l Ks F) as (Ks' & D & E). exists (kprod (m + k) Ks'). split; [constructor; [eapply extends_sequences; eassumption|assumption]|apply extends_prod, E].
Qed.
Lemma observable_more : forall w m k vals sq l K, observable_on w m vals sq l K -> exists K', observable_on w (m + k) vals sq l K' /\ extends m k K' K.
Proof.
  intros w m k vals sq l K (Ks & NE & F & ->).
  assert (X : exists Ks', Forall2 (denotes w (m + k) vals sq) l Ks' /\ Forall2 (extends m k) Ks' Ks).
  { clear NE. induction F as [|o K l Ks D F (Ks' & D' & E')]; [exists []; split; constructor|]. destruct (denotes_more w m k vals sq o K D) as (K' & D1 & E1).
    exists (K' :: Ks'). split; constructor; assumption. }
  destruct X as (Ks' & D & E). exists (ksum Ks'). split; [exists Ks'; auto|apply extends_sum, E].
Qed.

(** ** partial trace *)
Definition slice (e : list nat) (r : op) : op := fun x y => r (x ++ e) (y ++ e).
Lemma sandwich_slice : forall m k A' A r e, extends m k A' A -> In e (bitstrings k) -> keq m (slice e (sandwiched (m + k) A' r)) (sandwiched m A (slice e r)).
Proof.
  intros m k A' A r e H He x y Hx Hy. unfold slice, sandwiched, kmul, kadj. rewrite csum_bits_app. apply csum_ext; intros b Hb.
  rewrite (csum_ext _ _ (fun d => Cmul (kid e d) (Cmul (csum (bitstrings m) (fun a => Cmul (A x a) (r (a ++ e) (b ++ d)))) (Cconj (A y b))))).
  - rewrite (csum_kid_l k e (fun d => Cmul (csum (bitstrings m) (fun a => Cmul (A x a) (r (a ++ e) (b ++ d)))) (Cconj (A y b))) He). reflexivity.
  - intros d Hd. rewrite (H y b e d Hy Hb He Hd), Cconj_mul, kid_conj.
    assert (E : csum (bitstrings (m + k)) (fun z => Cmul (A' (x ++ e) z) (r z (b ++ d))) = csum (bitstrings m) (fun a => Cmul (A x a) (r (a ++ e) (b ++ d)))).
    { rewrite csum_bits_app. apply csum_ext; intros a Ha. rewrite (csum_ext _ _ (fun c => Cmul (kid e c) (Cmul (A x a) (r (a ++ c) (b ++ d))))).
      - apply (csum_kid_l k e (fun c => Cmul (A x a) (r (a ++ c) (b ++ d))) He).
      - intros c Hc. rewrite (H x a e c Hx Ha He Hc). ring. }
    rewrite E. ring.
Qed.
Lemma reduced_ext : forall m k r r', keq (m + k) r r' -> keq m (reduced k r) (reduced k r').
Proof. intros m k r r' H x y Hx Hy. apply csum_ext; intros e He. apply H; apply bitstrings_app; assumption. Qed.
Lemma reduced_sandwich : forall m k A' A r, extends m k A' A -> keq m (reduced k (sandwiched (m + k) A' r)) (sandwiched m A (reduced k r)).
Proof.
  intros m k A' A r H x y Hx Hy. unfold reduced at 1. rewrite (csum_ext _ _ (fun e => sandwiched m A (slice e r) x y)) by (intros e He; apply (sandwich_slice m k A' A r e H He x y Hx Hy)).
  unfold sandwiched, kmul, reduced, slice. rewrite csum_swap. apply csum_ext; intros b Hb. rewrite csum_scale_r. f_equal. rewrite csum_swap. apply csum_ext; intros a Ha. apply csum_scale_l.
Qed.
Lemma reduced_kraus : forall m k q ks r, q < m -> keq m (reduced k (kraus_sum (m + k) q ks r)) (kraus_sum m q ks (reduced k r)).
Proof.
  intros m k q ks r Hq. unfold kraus_sum. induction ks as [|a ks IH].
  - intros x y _ _. cbn [map ksum]. unfold reduced. apply csum_zero; auto.
  - cbn [map ksum]. intros x y Hx Hy. rewrite <- (IH x y Hx Hy), <- (reduced_sandwich m k (ctrl_kernel (entry a) [] [q]) (ctrl_kernel (entry a) [] [q]) r) by
      (first [assumption|apply extends_kernel; split; [repeat constructor; simpl; tauto|repeat constructor; exact Hq]]).
    unfold reduced. apply csum_add.
Qed.
Lemma reduced_channels : forall m k q l r, q < m -> keq m (reduced k (channels (m + k) [q] (Some l) r)) (channels m [q] (Some l) (reduced k r)).
Proof.
  intros m k q l r Hq. cbn [channels hd]. revert r. induction l as [|i l IH]; intro r; [apply keq_refl|]. cbn [fold_left]. eapply keq_trans; [apply IH|].
  apply (proj1 (linear_channels m [q] (Some l))). apply reduced_kraus, Hq.
Qed.
Lemma reduced_step : forall m k vals g r, usable m vals g -> noise_ok g -> keq m (reduced k (step (m + k) vals g r)) (step m vals g (reduced k r)).
Proof.
  intros m k vals g r HU HN. destruct (step_form m vals g HU HN) as (M & cs & ts & HG & _ & [(N & E)|(q & l & N & ET & Hq & F & E)]); rewrite E.
  - unfold step. rewrite N, (ctrl_of_spec _ _ (go_control _ _ _ _ _ _ HG)), (mat_of_spec _ _ _ (go_matrix _ _ _ _ _ _ HG)), (go_target _ _ _ _ _ _ HG). cbn [channels].
    apply reduced_sandwich, extends_kernel, (go_qubits _ _ _ _ _ _ HG).
  - unfold step. rewrite N, (ctrl_of_spec _ _ (go_control _ _ _ _ _ _ HG)), (mat_of_spec _ _ _ (go_matrix _ _ _ _ _ _ HG)), (go_target _ _ _ _ _ _ HG), ET.
    eapply keq_trans; [apply reduced_channels, Hq|]. apply (proj1 (linear_channels m [q] (Some l))). apply reduced_sandwich. rewrite <- ET. apply extends_kernel, (go_qubits _ _ _ _ _ _ HG).
Qed.
Lemma reduced_evolve : forall m k vals gs r, Forall (usable m vals) gs -> Forall noise_ok gs -> keq m (reduced k (evolve (m + k) vals gs r)) (evolve m vals gs (reduced k r)).
Proof.
  intros m k vals gs r FU. revert r. induction FU as [|g gs U FU IH]; intros r FN; [apply keq_refl|]. inversion FN as [|? ? N1 N2]; subst. cbn [evolve].
  eapply keq_trans; [apply IH, N2|]. apply evolve_ext, reduced_step; assumption.
Qed.
Lemma reduced_trace : forall m k K' K r, extends m k K' K -> ktrace (m + k) (kmul (m + k) K' r) = ktrace m (kmul m K (reduced k r)).
Proof.
  intros m k K' K r H. unfold ktrace. rewrite csum_bits_app. apply csum_ext; intros x Hx. unfold kmul, reduced.
  rewrite (csum_ext _ _ (fun e => csum (bitstrings m) (fun a => Cmul (K x a) (r (a ++ e) (x ++ e))))).
  - rewrite csum_swap. apply csum_ext; intros a Ha. apply csum_scale_l.
  - intros e He. rewrite csum_bits_app. apply csum_ext; intros a Ha. rewrite (csum_ext _ _ (fun c => Cmul (kid e c) (Cmul (K x a) (r (a ++ c) (x ++ e))))).
    + apply (csum_kid_l k e (fun c => Cmul (K x a) (r (a ++ c) (x ++ e))) He).
    + intros c Hc. rewrite (H x a e c Hx Ha He Hc). ring.
Qed.
Lemma runnable_more : forall m k vals c gs, runnable m vals c gs -> runnable (m + k) vals c gs.
Proof.
  intros m k vals c gs (A & B & D & E & F). split; [exact A|split; [exact B|split; [|auto]]]. eapply Forall_impl; [|exact D]. intros g (M & cs & ts & HG).
  exists M, cs, ts. apply gate_on_more, HG.
Qed.
Lemma readable_more : forall w m k vals st gs l K, readable w m vals st gs l K -> exists K', readable w (m + k) vals st gs l K' /\ extends m k K' K.
Proof.
  intros w m k vals st gs l K [(sq & H) D]. destruct (mixes_dec st gs (or_intror Logic.I)) as [MX|NM].
  - destruct (D MX) as [H' I]. destruct (observable_more w m k vals false l K H') as (K' & O & E). exists K'. split; [|exact E]. split; [exists false; exact O|]. intros _. split; assumption.
  - destruct (observable_more w m k vals sq l K H) as (K' & O & E). exists K'. split; [|exact E]. split; [exists sq; exact O|]. intro MX; contradiction.
Qed.
Lemma c86_reduced : forall w m k vals c gs st st', set_order (set_iter w) -> runnable m vals c gs -> state_of m st -> state_of (m + k) st' ->
    keq m (density_of st) (reduced k (density_of st')) ->
    (exists out out', run w c st vals = Ok (Some out) /\ run w c st' vals = Ok (Some out') /\ keq m (density_of out) (reduced k (density_of out'))) /\
    forall l K mode key, flat_values vals -> readable w m vals st gs l K -> readable w m vals st' gs l K -> exact_mode mode ->
      exists e, expectation w st c [l] vals mode 0 key = Ok [e] /\ expectation w st' c [l] vals mode 0 key = Ok [e].
Proof.
  intros w m k vals c gs st st' SO RN HT HT' KE. pose proof (runnable_more m k vals c gs RN) as RN'. pose proof RN as (_ & _ & FU & _ & FN). split.
  - destruct (output_spec w m vals c gs st SO RN HT) as (o & E & _ & _ & _ & KO & _). destruct (output_spec w (m + k) vals c gs st' SO RN' HT') as (o' & E' & _ & _ & _ & KO' & _).
    exists o, o'. split; [exact E|split; [exact E'|]]. eapply keq_trans; [exact KO|]. apply keq_sym. eapply keq_trans; [apply reduced_ext, KO'|].
    eapply keq_trans; [apply reduced_evolve; assumption|]. apply evolve_ext, keq_sym, KE.
  - intros l K mode key FV HR HR' EM. destruct (readable_more w m k vals st' gs l K HR') as (K' & HR2 & EX).
    exists (mean_density m K (evolve m vals gs (density_of st))). split; [apply (exact_spec w m vals c gs st [l] [K]); auto; discriminate|].
    rewrite (exact_spec w (m + k) vals c gs st' [l] [K'] mode key); auto; [|discriminate]. cbn [map]. do 2 f_equal. unfold mean_density. rewrite (reduced_trace m k K' K _ EX).
    f_equal. apply ktrace_ext, kmul_ext; [apply keq_refl|]. eapply keq_trans; [apply reduced_evolve; assumption|]. apply evolve_ext, keq_sym, KE.
Qed.
(** a product state *)
Lemma product_reduced : forall m k psi phi chi, is_state m psi -> is_state k phi -> norm2 k (amp phi) = 1%R ->
    (forall x e, In x (bitstrings m) -> In e (bitstrings k) -> amp chi (x ++ e) = Cmul (amp psi x) (amp phi e)) ->
    keq m (density_of (SDense psi)) (reduced k (density_of (SDense chi))).
Proof.
  intros m k psi phi chi _ _ N H x y Hx Hy. cbn [density_of]. unfold reduced, pure_density.
  rewrite (csum_ext _ _ (fun e => Cmul (Cmul (amp psi x) (Cconj (amp psi y))) (Cmul (amp phi e) (Cconj (amp phi e))))).
  - rewrite csum_scale_l. assert (E : csum (bitstrings k) (fun e => Cmul (amp phi e) (Cconj (amp phi e))) = C1).
    { change (ktrace k (pure_density phi) = C1). rewrite pure_trace, N. reflexivity. }
    rewrite E. ring.
  - intros e He. rewrite (H x e Hx He), (H y e Hy He), Cconj_mul. ring.
Qed.
