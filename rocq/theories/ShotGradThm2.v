(** * Precision of finite-shot parameter-shift gradients (C122): the evaluations and the results *)
From Coq Require Import String List Arith Bool Reals Lia Lra ZArith Permutation.
From Verif Require Import Cplx Py PyFacts Ndarray OperatorUtils Sparse Matrices Noise Gates Apply Composite Conversion Shots Gpsr Api
  Spec SpecFacts GateSpec PropSpec NoiseSpec SampleSpec ExpectSpec ShotsSpec PhysSpec GpsrSpec GpsrSpec2 ShotGradSpec AlgebraFacts SampleThm SeqThm ExpectThm ExpectThm2 ShotsThm ShotsThm2 GpsrFacts GpsrThm GpsrThm2 GpsrThm3 GpsrThm4 PhysThm ShotGradThm.
Import ListNotations.
Local Open Scope nat_scope.

Definition ready (n : nat) (v : values) (gs : list gate) : Prop := gs <> [] /\ Forall (usable n v) gs /\ Forall dense_gate gs /\ Forall noise_ok gs.
Definition outcomes (n : nat) (V : arr) (st : state) (gs : list gate) (v : values) : list R := map (weight n (entry V) (evolve n v gs (density_of st))) (bitstrings n).
Definition by_shots (n : nat) (V : arr) (k : nat) (ch : sampler) (e : point) (K : op) : R := average (values_at (eigenvalues_in n (entry V) K) (ch (fst e) (snd e) k)).
Definition in_exact (n : nat) (V : arr) (e : point) (K : op) : R := weighted (snd e) (eigenvalues_in n (entry V) K).

Lemma outcomes_run : forall w n v gs st V out, set_order (set_iter w) -> ready n v gs -> state_of n st -> run w (OSeq (map OGate gs)) st v = Ok (Some out) ->
    outcome_distribution n (entry V) out = outcomes n V st gs v.
Proof.
  intros w n v gs st V out SO (NG & FU & FD & FN) HS E. destruct (output_spec w n v (OSeq (map OGate gs)) gs st SO) as (out' & E' & _ & _ & _ & KQ & _); [repeat split; try assumption; apply seq_sequence|exact HS|].
  rewrite E in E'; injection E' as <-. rewrite outcome_weights. unfold outcomes. apply map_ext_in. intros y Hy. apply weight_ext; assumption.
Qed.
Lemma evaluation_values : forall w n v gs st l K ev V ls Ks evs k, set_order (set_iter w) -> ready n v gs -> state_of n st -> diagonalised w n K ev V -> 0 < k ->
    jointly_measured w n v V (l :: ls) (K :: Ks) (ev :: evs) -> Forall2 (readable w n v st gs) (l :: ls) (K :: Ks) ->
    (exists out, run w (OSeq (map OGate gs)) st v = Ok (Some out)) /\
    (forall ch kk, shots_eval (with_choice w ch) st (l :: ls) k (GMany gs) v kk = Ok (map (by_shots n V k ch (kk, outcomes n V st gs v)) (K :: Ks))) /\
    (forall kk, analytical_eval w st (l :: ls) (GMany gs) v kk = Ok (map (in_exact n V (kk, outcomes n V st gs v)) (K :: Ks))) /\
    Forall2 (fun K0 ev0 => Permutation (eigenvalues_in n (entry V) K0) ev0) (K :: Ks) (ev :: evs).
Proof.
  intros w n v gs st l K ev V ls Ks evs k SO RD HS HD Hk HJ HR. assert (RD' := RD). destruct RD as (NG & FU & FD & FN).
  destruct (c51_value w n v (OSeq (map OGate gs)) gs st l K ev V ls Ks evs AD (Z.of_nat k) 0 SO (seq_sequence gs) NG FU FD FN HS HD HJ (or_introl eq_refl)) as (out & Er & _ & So & _ & _ & _ & PM & M); [lia|].
  split; [eauto|split; [|split; [|exact PM]]].
  - intros ch kk. destruct (any_choice w n v (OSeq (map OGate gs)) gs st l K ev V ls Ks evs AD (Z.of_nat k) kk SO (seq_sequence gs) NG FU FD FN HS HD HJ (or_introl eq_refl)) as (out' & Er' & _ & _ & E & _); [lia|].
    rewrite Er in Er'; injection Er' as <-. rewrite Nat2Z.id in E. unfold shots_eval. rewrite E. rewrite (outcomes_run w n v gs st V out SO RD' HS Er). reflexivity.
  - intro kk. unfold analytical_eval. rewrite (eval_spec w n v st gs (l :: ls) (K :: Ks) SO NG FU FD FN HS) by (first [discriminate|exact HR]). f_equal. apply map_ext_in. intros K0 I.
    unfold in_exact; cbn [fst snd]. rewrite <- (outcomes_run w n v gs st V out SO RD' HS Er). rewrite Forall_forall in M. rewrite (M K0 I).
    destruct (evolve_output w n v st gs SO NG FU FD FN HS) as (out' & Ea' & _ & M' & _).
    destruct (output_spec w n v (OSeq (map OGate gs)) gs st SO) as (o2 & E2 & _ & Ea2 & _); [repeat split; try assumption; apply seq_sequence|exact HS|].
    rewrite Er in E2; injection E2 as <-. rewrite Ea' in Ea2; injection Ea2 as ->. symmetry; apply M'.
Qed.

(** the circuits the rule evaluates *)
Lemma ready_value : forall n vals gs name t, ready n vals gs -> ready n (at_value vals name t) gs.
Proof. intros n vals gs name t (A & B & D & E). repeat split; try assumption. eapply Forall_impl; [|exact B]. intros g; apply usable_at. Qed.
Lemma ready_gate : forall n vals gs i s, ready n vals gs -> ready n vals (shift_at gs i s).
Proof.
  intros n vals gs i s (A & B & D & E). split; [apply shift_at_nonempty; exact A|split; [apply shift_at_Forall; [intro h; apply usable_shiftg|exact B]|]].
  split; (apply shift_at_Forall; [intros h Hh; exact Hh|assumption]).
Qed.
Lemma renamed_evolve : forall n vals gs st uuid, numeric_values vals -> ready n vals gs -> all_rotations gs -> (forall i j, uuid i = uuid j -> i = j) ->
    forall i p s, In p (map fst vals) -> In i (param_indices gs p) ->
    let v' := at_value (nv vals gs uuid) (uuid i) (valof vals p + s) in
    ready n v' (ng vals gs uuid) /\ evolve n v' (ng vals gs uuid) (density_of st) = evolve n vals (shift_at gs i s) (density_of st).
Proof.
  intros n vals gs st uuid NV (NG & FU & FD & FN) AR UI i p s Hp Hi. set (keys := map fst vals). intro v'.
  assert (LK : forall j g q, In (j, g) (indexed gs) -> uses_param q g = true -> In q keys -> lookup v' (uuid j) = Ok (VNum (valof vals q + if Nat.eqb j i then s else 0))).
  { intros j g q I U Hq. unfold v', at_value. rewrite lookup_set. destruct (rp_named n vals gs FU AR j g q I U) as [_ Ij]. destruct (Nat.eqb_spec j i) as [->|N].
    - rewrite String.eqb_refl. destruct (param_indices_in gs p i Hi) as (h & E & Uh). apply indexed_in in I. rewrite I in E; injection E as <-. rewrite (uses_unique g q p U Uh). reflexivity.
    - destruct (String.eqb_spec (uuid j) (uuid i)) as [Q|_]; [apply UI in Q; contradiction|]. assert (R1 := rp_lookup vals gs uuid NV UI j q Hq Ij). cbv beta in R1. fold (valof vals q) in R1. etransitivity; [exact R1|]. rewrite Rplus_0_r. reflexivity. }
  split; [split; [|split; [|split]]|].
  - unfold ng. intro Q. apply map_eq_nil in Q. apply NG. rewrite <- (indexed_snd gs), Q. reflexivity.
  - apply Forall_forall. intros g' I. unfold ng in I. apply in_map_iff in I as ([j g] & <- & I). unfold rename_at; cbn [fst snd]. pose proof (rp_usable n vals gs FU j g I) as U. fold keys. destruct (in_names keys g) eqn:E.
    + apply in_names_spec in E as (q & Uq & Hq). eapply renamed_usable; [exact U|apply plain_param; apply (rp_named n vals gs FU AR j g q I Uq)|exact (LK j g q I Uq Hq)].
    + apply (unnamed_usable n vals); [exact U|]. apply (in_names_false n vals g U E).
  - apply Forall_forall. intros g' I. unfold ng in I. apply in_map_iff in I as ([j g] & <- & I). rewrite Forall_forall in FD. assert (D : dense_gate g).
    { apply FD. rewrite <- (indexed_snd gs). apply in_map_iff; exists (j, g); split; [reflexivity|exact I]. }
    unfold rename_at; cbn [fst snd]. destruct (in_names _ g); exact D.
  - apply Forall_forall. intros g' I. unfold ng in I. apply in_map_iff in I as ([j g] & <- & I). rewrite Forall_forall in FN. assert (D : noise_ok g).
    { apply FN. rewrite <- (indexed_snd gs). apply in_map_iff; exists (j, g); split; [reflexivity|exact I]. }
    unfold rename_at; cbn [fst snd]. destruct (in_names _ g); exact D.
  - rewrite shift_at_indexed. unfold ng. apply evolve_map. intros [j g] I r. cbn [fst snd]. unfold rename_at; cbn [fst snd]. fold keys.
    pose proof (rp_usable n vals gs FU j g I) as U. destruct (in_names keys g) eqn:E.
    + apply in_names_spec in E as (q & Uq & Hq). specialize (LK j g q I Uq Hq). destruct (rp_named n vals gs FU AR j g q I Uq) as [(C & _) Ij].
      assert (A : forall h, gclass h = gclass g -> generator_name h = generator_name g -> target h = target g -> control h = control g -> noise h = noise g ->
          angle_of vals h = (valof vals q + (if Nat.eqb j i then s else 0) + shift g)%R -> step n v' (renamed g (uuid j)) r = step n vals h r).
      { intros h H1 H2 H3 H4 H5 H6. unfold step, mat_of. rewrite H1, H2, H3, H4, H5, H6. unfold renamed; cbn [gclass generator_name target control noise]. rewrite C.
        unfold angle_of; cbn [gparam shift]. rewrite LK. reflexivity. }
      assert (PQ : gparam g = PName q). { unfold uses_param in Uq. apply andb_prop in Uq as [_ Uq]. destruct (gparam g); [apply String.eqb_eq in Uq; congruence|discriminate]. }
      assert (VQ : lookup vals q = Ok (VNum (valof vals q))) by (apply look; assumption).
      destruct (Nat.eqb j i); apply A; try reflexivity; unfold angle_of; cbn [gparam shiftg shift]; rewrite PQ, VQ; ring.
    + assert (EN : names_of_gate g = []) by (apply (in_names_false n vals g U E)).
      destruct (Nat.eqb_spec j i) as [->|N].
      * exfalso. destruct (param_indices_in gs p i Hi) as (h & Eh & Uh). apply indexed_in in I. rewrite I in Eh; injection Eh as <-. rewrite (uses_in_names n vals g p U Uh) in EN. discriminate.
      * unfold step. rewrite (unnamed_mat n vals v' g U EN). reflexivity.
Qed.

Lemma exact_any_key : forall w st obs gs vals split key, gpsr_bwd (analytical_eval w st obs) (GMany gs) vals no_split 0 = gpsr_bwd (analytical_eval w st obs) (GMany gs) vals split key.
Proof. intros w st obs gs vals split key. unfold gpsr_bwd. destruct (gpsr_branch (GMany gs) (map fst vals)); reflexivity. Qed.

Section Results.
  Variables (w : world) (n : nat) (vals : values) (circuit : oper) (gs : list gate) (st : state) (l : list oper) (K : op) (ev : list R) (V : arr) (ls : list (list oper)) (Ks : list op) (evs : list (list R)).
  Variables (B : list R) (k : nat) (uuid : nat -> string) (split : nat -> nat -> nat -> nat) (key : nat) (Om : space).
  Hypothesis SO : set_order (set_iter w).
  Hypothesis NV : numeric_values vals.
  Hypothesis VN : vals <> [].
  Hypothesis HQ : sequence_of circuit gs.
  Hypothesis NG : gs <> [].
  Hypothesis FU : Forall (usable n vals) gs.
  Hypothesis FD : Forall dense_gate gs.
  Hypothesis FN : Forall noise_ok gs.
  Hypothesis AR : forall g, In g gs -> names_of_gate g <> [] -> plain_rotation g.
  Hypothesis ALL : forall name, In name (map fst vals) -> In name (flat_map names_of_gate gs).
  Hypothesis HS : state_of n st.
  Hypothesis HD : diagonalised w n K ev V.
  Hypothesis Hk : 0 < k.
  Hypothesis HO : forall v, jointly_measured w n v V (l :: ls) (K :: Ks) (ev :: evs) /\ Forall2 (readable w n v st gs) (l :: ls) (K :: Ks).
  Hypothesis HF : forall gs' v out key', shifted_evaluation vals gs gs' v -> run w (OSeq (map OGate gs')) st v = Ok (Some out) ->
      fair_sampling Om key' (outcome_distribution n (entry V) out) k /\ independent_draws Om key' (outcome_distribution n (entry V) out) k.
  Hypothesis HB : Forall2 within B (ev :: evs).
  Let obs := l :: ls.
  Let Ka := K :: Ks.
  Let keys := map fst vals.
  Let P := outcomes n V st.
  Let RD : ready n vals gs := Logic.conj NG (Logic.conj FU (Logic.conj FD FN)).

  Lemma at_shifted_value : forall name s, In name keys -> s = (PI / 2)%R \/ s = (- (PI / 2))%R ->
      (forall ch kk, shots_eval (with_choice w ch) st obs k (GMany gs) (at_value vals name (valof vals name + s)) kk = Ok (map (by_shots n V k ch (kk, P gs (at_value vals name (valof vals name + s)))) Ka)) /\
      (forall kk, analytical_eval w st obs (GMany gs) (at_value vals name (valof vals name + s)) kk = Ok (map (in_exact n V (kk, P gs (at_value vals name (valof vals name + s)))) Ka)) /\
      forall kk, fair_sampling Om kk (P gs (at_value vals name (valof vals name + s))) k /\ independent_draws Om kk (P gs (at_value vals name (valof vals name + s))) k.
  Proof.
    intros name s Hn Hs. set (v := at_value vals name (valof vals name + s)). assert (RV : ready n v gs) by (apply ready_value; exact RD).
    destruct (HO v) as [HJ HR]. destruct (evaluation_values w n v gs st l K ev V ls Ks evs k SO RV HS HD Hk HJ HR) as ((out & Er) & E1 & E2 & _).
    split; [exact E1|split; [exact E2|]]. intro kk. unfold P. rewrite <- (outcomes_run w n v gs st V out SO RV HS Er). apply (HF gs v out kk); [|exact Er].
    eapply se_value; [apply look; assumption|exact Hs].
  Qed.
  Lemma at_shifted_gate : forall i p s, In p keys -> In i (param_indices gs p) -> s = (PI / 2)%R \/ s = (- (PI / 2))%R ->
      (forall ch kk, shots_eval (with_choice w ch) st obs k (GMany (shift_at gs i s)) vals kk = Ok (map (by_shots n V k ch (kk, P (shift_at gs i s) vals)) Ka)) /\
      (forall kk, analytical_eval w st obs (GMany (shift_at gs i s)) vals kk = Ok (map (in_exact n V (kk, P (shift_at gs i s) vals)) Ka)) /\
      forall kk, fair_sampling Om kk (P (shift_at gs i s) vals) k /\ independent_draws Om kk (P (shift_at gs i s) vals) k.
  Proof.
    intros i p s Hp Hi Hs. assert (RV : ready n vals (shift_at gs i s)) by (apply ready_gate; exact RD).
    destruct (HO vals) as [HJ HR]. assert (HR' : Forall2 (readable w n vals st (shift_at gs i s)) (l :: ls) (K :: Ks)) by (eapply F2_impl; [|exact HR]; intros l0 K0; apply readable_mixes, shift_at_mixes).
    destruct (evaluation_values w n vals (shift_at gs i s) st l K ev V ls Ks evs k SO RV HS HD Hk HJ HR') as ((out & Er) & E1 & E2 & _).
    split; [exact E1|split; [exact E2|]]. intro kk. unfold P. rewrite <- (outcomes_run w n vals (shift_at gs i s) st V out SO RV HS Er). apply (HF (shift_at gs i s) vals out kk); [|exact Er].
    destruct (param_indices_in gs p i Hi) as (g & En & U). assert (Ig : In g gs) by (eapply nth_error_In; exact En).
    eapply se_gate; [exact Hs|]. apply (alter_param gs i s g En). apply plain_param, AR; [exact Ig|]. rewrite (uses_in_names n vals g p (proj1 (Forall_forall _ _) FU g Ig) U). discriminate.
  Qed.
  Lemma at_renamed : (forall i j, uuid i = uuid j -> i = j) -> forall i p s, In p keys -> In i (param_indices gs p) -> s = (PI / 2)%R \/ s = (- (PI / 2))%R ->
      (forall ch kk, shots_eval (with_choice w ch) st obs k (GMany (ng vals gs uuid)) (at_value (nv vals gs uuid) (uuid i) (valof vals p + s)) kk = Ok (map (by_shots n V k ch (kk, P (shift_at gs i s) vals)) Ka)) /\
      (forall kk, analytical_eval w st obs (GMany (ng vals gs uuid)) (at_value (nv vals gs uuid) (uuid i) (valof vals p + s)) kk = Ok (map (in_exact n V (kk, P (shift_at gs i s) vals)) Ka)).
  Proof.
    intros UI i p s Hp Hi Hs. destruct (renamed_evolve n vals gs st uuid NV RD AR UI i p s Hp Hi) as [RV EV]. set (v := at_value _ _ _) in *.
    destruct (HO v) as [HJ HR]. assert (HR' : Forall2 (readable w n v st (ng vals gs uuid)) (l :: ls) (K :: Ks)) by (eapply F2_impl; [|exact HR]; intros l0 K0; apply readable_mixes, rp_mixes).
    destruct (evaluation_values w n v (ng vals gs uuid) st l K ev V ls Ks evs k SO RV HS HD Hk HJ HR') as (_ & E1 & E2 & _).
    assert (Q : outcomes n V st (ng vals gs uuid) v = P (shift_at gs i s) vals) by (unfold outcomes, P; rewrite EV; reflexivity). rewrite Q in E1, E2. split; assumption.
  Qed.

  (** every pair of evaluations estimates with the error of its two estimates *)
  Definition fair_point (e : point) : Prop := fair_sampling Om (fst e) (snd e) k /\ independent_draws Om (fst e) (snd e) k /\ length (snd e) = 2 ^ n.
  Lemma point_fair : forall kk up down, (forall q, fair_sampling Om q up k /\ independent_draws Om q up k) -> (forall q, fair_sampling Om q down k /\ independent_draws Om q down k) ->
      length up = 2 ^ n -> length down = 2 ^ n -> fair_point (fst (pair_at split kk up down)) /\ fair_point (snd (pair_at split kk up down)).
  Proof. intros kk up down HU HDn L1 L2. split; (split; [|split]); cbn [pair_at fst snd]; try assumption; try apply HU; apply HDn. Qed.
  Lemma P_length : forall gs' v, length (P gs' v) = 2 ^ n.
  Proof. intros. unfold P, outcomes. rewrite map_length. apply bitstrings_count. Qed.
  Lemma jvp_points_fair : forall name e, In name keys -> In e (jvp_points vals gs split key P name) -> fair_point (fst e) /\ fair_point (snd e).
  Proof.
    intros name e Hn H. unfold jvp_points in H. destruct (ListDec.NoDup_dec _ _) as [ND|ND].
    - destruct H as [<-|[]]. apply point_fair; try apply P_length; intro q; apply (at_shifted_value name); auto.
    - apply in_map_iff in H as (i & <- & Hi). apply point_fair; try apply P_length; intro q; apply (at_shifted_gate i name); auto.
  Qed.
  Lemma bwd_points_fair : forall name e, In name keys -> In e (bwd_points vals gs split key P name) -> fair_point (fst e) /\ fair_point (snd e).
  Proof.
    intros name e Hn H. unfold bwd_points in H. destruct (ListDec.NoDup_dec _ _) as [ND|ND].
    - destruct H as [<-|[]]. apply point_fair; try apply P_length; intro q; apply (at_shifted_value name); auto.
    - apply in_map_iff in H as (i & <- & Hi). apply point_fair; try apply P_length; intro q; apply (at_shifted_gate i name); auto.
  Qed.
  Lemma spectra : Forall2 (fun K0 ev0 => Permutation (eigenvalues_in n (entry V) K0) ev0) Ka (ev :: evs).
  Proof. destruct (HO vals) as [HJ HR]. apply (evaluation_values w n vals gs st l K ev V ls Ks evs k SO RD HS HD Hk HJ HR). Qed.
  Lemma weights_ok : okw Om.
  Proof.
    assert (N : exists name, In name keys) by (unfold keys; clear -VN; destruct vals as [|[name v] vals']; [contradiction|]; exists name; left; reflexivity). destruct N as (name & Hn).
    destruct (at_shifted_value name (PI / 2) Hn (or_introl eq_refl)) as (_ & _ & F). destruct (F 0) as [(_ & W & _) _]. exact W.
  Qed.
  Lemma bound_at : forall j, j < length Ka -> exists b, nth_error B j = Some b /\ within b (eigenvalues_in n (entry V) (nth j Ka kid)) /\ (0 <= b)%R.
  Proof.
    intros j Hj. assert (S := spectra). assert (LS := F2_len S). assert (LB := F2_len HB). destruct (nth_error B j) as [b|] eqn:EB; [|apply nth_error_None in EB; unfold Ka in *; cbn [length] in *; lia].
    exists b. split; [reflexivity|]. assert (W := F2_nth _ _ _ [] HB j b EB).
    destruct (nth_error Ka j) as [A|] eqn:EA; [|apply nth_error_None in EA; lia]. assert (PM := F2_nth _ _ _ [] S j A EA). cbv beta in PM. rewrite (nth_error_nth _ _ kid EA).
    assert (W2 : within b (eigenvalues_in n (entry V) A)) by (unfold within in *; apply Forall_forall; intros x Hx; rewrite Forall_forall in W; apply W; eapply Permutation_in; [exact PM|exact Hx]).
    split; [exact W2|]. destruct (eigenvalues_in n (entry V) A) as [|x a] eqn:EE.
    - exfalso. assert (LL : length (eigenvalues_in n (entry V) A) = 2 ^ n) by (unfold eigenvalues_in; rewrite map_length; apply bitstrings_count). rewrite EE in LL. cbn [length] in LL. assert (2 ^ n <> 0) by (apply Nat.pow_nonzero; lia). lia.
    - inversion W2; subst. eapply Rle_trans; [apply Rabs_pos|eassumption].
  Qed.
  Lemma eig_length : forall A, length (eigenvalues_in n (entry V) A) = 2 ^ n.
  Proof. intro A. unfold eigenvalues_in. rewrite map_length. apply bitstrings_count. Qed.
  Lemma pair_error : forall e A b, fair_point (fst e) -> fair_point (snd e) -> within b (eigenvalues_in n (entry V) A) -> (0 <= b)%R ->
      expected Om (fun ch => halfdiff (by_shots n V k ch) e A) = halfdiff (in_exact n V) e A /\
      rms Om (fun ch => halfdiff (by_shots n V k ch) e A - halfdiff (in_exact n V) e A)%R (b / sqrt (INR k)).
  Proof.
    intros [[k1 p1] [k2 p2]] A b (F1 & I1 & L1) (F2 & I2 & L2) W Hb. cbn [fst snd] in *. unfold halfdiff, by_shots, in_exact; cbn [fst snd]. set (a := eigenvalues_in n (entry V) A) in *.
    assert (La : length a = 2 ^ n) by apply eig_length. split.
    - rewrite (expected_eq Om _ (fun ch => / 2 * average (values_at a (ch k1 p1 k)) + - / 2 * average (values_at a (ch k2 p2 k)))%R) by (intro; field).
      rewrite expected_add, !expected_scale, !estimate_mean by (first [assumption|congruence]). field.
    - assert (E1 := estimate_rms Om k1 p1 k a b F1 I1 (eq_trans La (eq_sym L1)) Hk W Hb). assert (E2 := estimate_rms Om k2 p2 k a b F2 I2 (eq_trans La (eq_sym L2)) Hk W Hb).
      apply (rms_scale Om _ _ (/ 2)) in E1. apply (rms_scale Om _ _ (- / 2)) in E2. assert (E := rms_add Om _ _ _ _ weights_ok E1 E2). eapply rms_ext; [| |exact E].
      + intro ch. cbv beta. field.
      + rewrite Rabs_Ropp, (Rabs_right (/ 2)) by lra. field. apply Rgt_not_eq, sqrt_lt_R0, lt_0_INR, Hk.
  Qed.
  Lemma points_error : forall (J : list (point * point)) A b, (forall e, In e J -> fair_point (fst e) /\ fair_point (snd e)) -> within b (eigenvalues_in n (entry V) A) -> (0 <= b)%R ->
      expected Om (fun ch => rsum J (fun e => halfdiff (by_shots n V k ch) e A)) = rsum J (fun e => halfdiff (in_exact n V) e A) /\
      rms Om (fun ch => rsum J (fun e => halfdiff (by_shots n V k ch) e A) - rsum J (fun e => halfdiff (in_exact n V) e A))%R (INR (length J) * (b / sqrt (INR k))).
  Proof.
    intros J A b HJ W Hb. split.
    - rewrite expected_sum. apply rsum_ext. intros e He. apply (pair_error e A b); try apply HJ; assumption.
    - eapply rms_ext; [| |apply (rms_sum Om J (fun e ch => halfdiff (by_shots n V k ch) e A - halfdiff (in_exact n V) e A)%R (fun _ => b / sqrt (INR k))%R weights_ok)].
      + intro ch. cbv beta. rewrite <- rsum_minus. reflexivity.
      + rewrite rsum_const. reflexivity.
      + intros e He. apply (pair_error e A b); try apply HJ; assumption.
  Qed.

  (** the exact gradients *)
  Lemma exact_gradients : exists fwd grads, expectation w st circuit obs vals GPSR 0 key = Ok fwd /\ length grads = length vals /\
      (forall i name, nth_error (map fst vals) i = Some name -> gradient_at (fun v => expectation w st circuit obs v GPSR 0 key) vals name (nth i grads [])) /\
      (Forall (fun g => gclass g <> KPhase) gs -> analytical_gpsr_bwd w st (GMany gs) obs vals = Ok (map total grads)) /\
      (forall tangents, length tangents = length vals -> (forall i j, uuid i = uuid j -> i = j) -> analytical_gpsr_jvp w st (GMany gs) obs vals tangents uuid = Ok (fwd, directional (length obs) grads tangents)).
  Proof.
    destruct (ListDec.NoDup_dec string_dec (flat_map names_of_gate gs)) as [ND|ND].
    - destruct (c52_exact w n vals circuit gs st obs key SO NV VN HQ NG FU FD FN HS) as (fwd & grads & E1 & E2 & E3 & E4 & E5); [discriminate|exact ND|intros name t _; eexists; apply HO|].
      exists fwd, grads. split; [exact E1|split; [exact E2|split; [|split; [exact E4|intros t L _; apply E5; exact L]]]]. intros i name E. apply E3; [exact E| |eexists; intro; apply HO].
      intros g Hg Hn. apply AR; [exact Hg|]. intro Q; rewrite Q in Hn; destruct Hn.
    - destruct (c53_exact w n vals circuit gs st obs Ka key SO NV VN HQ NG FU FD FN HS) as (fwd & grads & E1 & E2 & E3 & E4 & E5); [discriminate|intro; apply HO|exact AR|exact ALL|exact ND|].
      exists fwd, grads. split; [exact E1|split; [exact E2|split; [exact E3|split; [exact E4|intros t L U; apply E5; assumption]]]].
  Qed.
  Definition sums (Y : point -> op -> R) (J : string -> list (point * point)) (name : string) : list R := map (fun A => rsum (J name) (fun e => halfdiff Y e A)) (K :: Ks).
  Lemma directional_at : forall (G : string -> list R) tangents j, j < length Ka -> nth j (directional (length Ka) (map G keys) tangents) 0%R = rsum (combine keys tangents) (fun nt => nth j (G (fst nt)) 0 * snd nt)%R.
  Proof.
    intros G tangents j Hj. unfold directional. rewrite (nth_map_lt _ _ _ _ 0) by (rewrite seq_length; exact Hj). rewrite seq_nth by exact Hj. cbn [Nat.add].
    generalize tangents as ts. induction keys as [|a ks IH]; intros [|t ts]; cbn [map combine rsum]; try reflexivity. rewrite IH. reflexivity.
  Qed.
  Lemma square_div : forall x, (x / sqrt (INR k) * (x / sqrt (INR k)) = x * x / INR k)%R.
  Proof.
    intro x. assert (Pk : (0 < INR k)%R) by (apply lt_0_INR; exact Hk). assert (Ps := sqrt_lt_R0 _ Pk).
    transitivity (x * x / (sqrt (INR k) * sqrt (INR k)))%R; [field; lra|rewrite sqrt_sqrt by lra; reflexivity].
  Qed.
  Lemma obs_length : length obs = length Ka.
  Proof. unfold obs, Ka. destruct (HO vals) as [_ HR]. apply (F2_len HR). Qed.
  Lemma c122_jvp : forall tangents, length tangents = length vals -> (forall i j, uuid i = uuid j -> i = j) ->
      exists fwd est grads, (forall ch, expectation (with_choice w ch) st circuit (l :: ls) vals GPSR (Z.of_nat k) key = Ok (fwd ch)) /\
      (forall ch, finite_shots_gpsr_jvp (with_choice w ch) st (GMany gs) (l :: ls) vals tangents k uuid split key = Ok (fwd ch, est ch) /\ length (est ch) = length (l :: ls)) /\
      length grads = length vals /\
      (forall i name, nth_error (map fst vals) i = Some name -> gradient_at (fun v => expectation w st circuit (l :: ls) v GPSR 0 key) vals name (nth i grads [])) /\
      forall j, j < length (l :: ls) ->
        let derivative := nth j (directional (length (l :: ls)) grads tangents) 0%R in
        let error ch := (nth j (est ch) 0 - derivative)%R in
        let bound := (nth j B 0 * tangent_size gs (map fst vals) tangents)%R in
        expected Om (fun ch => nth j (est ch) 0%R) = derivative /\
        (expected Om (fun ch => error ch * error ch) <= bound * bound / INR k)%R /\
        forall eps, (0 < eps)%R -> (expected Om (fun ch => if Rle_dec eps (Rabs (error ch)) then 1 else 0) <= bound * bound / INR k / (eps * eps))%R.
  Proof.
    intros tangents LT UI. set (J := jvp_points vals gs split key P).
    assert (G1 : forall ch, jvp_grads (shots_eval (with_choice w ch) st obs k) (GMany gs) vals uuid split key = Ok (map (sums (by_shots n V k ch) J) keys)).
    { intro ch. apply (jvp_structure n vals gs uuid split key Ka P NV VN FU AR ALL _ (by_shots n V k ch)); [|exact UI|].
      - intros name s kk Hn Hs. apply (at_shifted_value name s Hn Hs).
      - intros i p s kk Hp Hi Hs. apply (at_renamed UI i p s Hp Hi Hs). }
    assert (G2 : jvp_grads (analytical_eval w st obs) (GMany gs) vals uuid split key = Ok (map (sums (in_exact n V) J) keys)).
    { apply (jvp_structure n vals gs uuid split key Ka P NV VN FU AR ALL _ (in_exact n V)); [|exact UI|].
      - intros name s kk Hn Hs. apply (at_shifted_value name s Hn Hs).
      - intros i p s kk Hp Hi Hs. apply (at_renamed UI i p s Hp Hi Hs). }
    destruct exact_gradients as (fwd0 & grads & E1 & E2 & E3 & _ & E5). specialize (E5 tangents LT UI).
    assert (CT : forall Y, jvp_contract (map (sums Y J) keys) tangents = directional (length Ka) (map (sums Y J) keys) tangents).
    { intro Y. apply contract_spec.
      - intro Q. apply map_eq_nil in Q. unfold keys in Q. apply map_eq_nil in Q. contradiction.
      - unfold keys. rewrite !map_length. exact LT.
      - apply Forall_forall. intros d Hd. apply in_map_iff in Hd as (name & <- & _). unfold sums. rewrite map_length. reflexivity. }
    assert (ED : directional (length obs) grads tangents = directional (length Ka) (map (sums (in_exact n V) J) keys) tangents).
    { unfold analytical_gpsr_jvp, gpsr_jvp in E5. destruct (analytical_eval w st obs (GMany gs) vals 0) as [x|]; cbn [bind] in E5; [|discriminate].
      change (jvp_grads (analytical_eval w st obs) (GMany gs) vals uuid no_split 0) with (jvp_grads (analytical_eval w st obs) (GMany gs) vals uuid split key) in E5.
      rewrite G2 in E5; cbn [bind] in E5. rewrite CT in E5. congruence. }
    destruct (any_choice w n vals circuit gs st l K ev V ls Ks evs GPSR (Z.of_nat k) key SO HQ NG FU FD FN HS HD (proj1 (HO vals)) (or_intror eq_refl)) as (out & _ & _ & _ & FS & EX & _); [lia|]. rewrite Nat2Z.id in FS, EX.
    eexists _, (fun ch => directional (length Ka) (map (sums (by_shots n V k ch) J) keys) tangents), grads.
    split; [exact EX|split; [|split; [exact E2|split; [exact E3|]]]].
    { intro ch. split; [|unfold directional; rewrite map_length, seq_length; symmetry; apply obs_length].
      unfold finite_shots_gpsr_jvp, gpsr_jvp. unfold shots_eval at 1. rewrite (FS ch); cbn [bind]. fold obs. rewrite G1; cbn [bind]. rewrite CT. reflexivity. }
    intros j Hj. fold obs in Hj |- *. rewrite ED. rewrite obs_length in Hj. cbv zeta. rewrite (directional_at (sums (in_exact n V) J)) by exact Hj.
    destruct (bound_at j Hj) as (b & EB & W & Pb). rewrite (nth_error_nth B j 0%R EB).
    assert (SJ : forall Y name, nth j (sums Y J name) 0%R = rsum (J name) (fun e => halfdiff Y e (nth j Ka kid))) by (intros Y name; unfold sums; fold Ka; rewrite (nth_map_lt (fun A : op => rsum (J name) (fun e => halfdiff Y e A)) Ka j 0%R kid Hj); reflexivity).
    assert (PE : forall nt, In nt (combine keys tangents) ->
        expected Om (fun ch => nth j (sums (by_shots n V k ch) J (fst nt)) 0%R) = nth j (sums (in_exact n V) J (fst nt)) 0%R /\
        rms Om (fun ch => snd nt * (nth j (sums (by_shots n V k ch) J (fst nt)) 0 - nth j (sums (in_exact n V) J (fst nt)) 0))%R (Rabs (snd nt) * INR (uses gs (fst nt)) * (b / sqrt (INR k)))).
    { intros [name t] I. cbn [fst snd]. assert (Hn : In name keys) by (apply in_combine_l in I; exact I).
      destruct (points_error (J name) (nth j Ka kid) b) as [M1 M2]; [intros e He; apply (jvp_points_fair name e Hn He)|exact W|exact Pb|]. split.
      - rewrite SJ, <- M1. apply expected_eq. intro ch. apply SJ.
      - eapply rms_ext; [| |apply (rms_scale Om _ _ t M2)].
        + intro ch. cbv beta. rewrite !SJ. reflexivity.
        + unfold J. rewrite (jvp_points_length n vals gs split key P FU ALL name Hn). ring. }
    assert (ER : forall ch, nth j (directional (length Ka) (map (sums (by_shots n V k ch) J) keys) tangents) 0%R = rsum (combine keys tangents) (fun nt => nth j (sums (by_shots n V k ch) J (fst nt)) 0 * snd nt)%R) by (intro ch; apply directional_at; exact Hj).
    assert (RM : rms Om (fun ch => nth j (directional (length Ka) (map (sums (by_shots n V k ch) J) keys) tangents) 0 - rsum (combine keys tangents) (fun nt => nth j (sums (in_exact n V) J (fst nt)) 0 * snd nt))%R (b * tangent_size gs keys tangents / sqrt (INR k))).
    { eapply rms_ext; [| |apply (rms_sum Om (combine keys tangents) (fun nt ch => snd nt * (nth j (sums (by_shots n V k ch) J (fst nt)) 0 - nth j (sums (in_exact n V) J (fst nt)) 0))%R (fun nt => Rabs (snd nt) * INR (uses gs (fst nt)) * (b / sqrt (INR k)))%R weights_ok)].
      - intro ch. cbv beta. rewrite ER, <- rsum_minus. apply rsum_ext. intros; ring.
      - unfold tangent_size. rewrite (rsum_ext _ _ (fun nt => b / sqrt (INR k) * (Rabs (snd nt) * INR (uses gs (fst nt))))%R) by (intros; ring). rewrite rsum_scale. unfold Rdiv; ring.
      - intros nt I. apply PE; exact I. }
    split; [|split].
    - rewrite (expected_eq Om _ (fun ch => rsum (combine keys tangents) (fun nt => nth j (sums (by_shots n V k ch) J (fst nt)) 0 * snd nt)%R)) by exact ER.
      rewrite (expected_sum Om _ (fun nt ch => nth j (sums (by_shots n V k ch) J (fst nt)) 0 * snd nt)%R). apply rsum_ext. intros nt I. rewrite (expected_eq Om _ (fun ch => snd nt * nth j (sums (by_shots n V k ch) J (fst nt)) 0)%R) by (intro; ring).
      rewrite expected_scale, (proj1 (PE nt I)). ring.
    - rewrite <- square_div. apply RM.
    - intros eps He. eapply Rle_trans; [apply (chebyshev Om (fun ch => nth j (directional (length Ka) (map (sums (by_shots n V k ch) J) keys) tangents) 0%R)); [exact weights_ok|exact He]|].
      apply Rmult_le_compat_r; [left; apply Rinv_0_lt_compat, Rmult_lt_0_compat; exact He|]. rewrite <- square_div. apply RM.
  Qed.
  Lemma c122_bwd : Forall (fun g => gclass g <> KPhase) gs ->
      exists est grads, (forall ch, finite_shots_gpsr_bwd (with_choice w ch) st (GMany gs) (l :: ls) vals k split key = Ok (est ch) /\ length (est ch) = length vals) /\
      length grads = length vals /\
      forall i name, nth_error (map fst vals) i = Some name ->
        gradient_at (fun v => expectation w st circuit (l :: ls) v GPSR 0 key) vals name (nth i grads []) /\
        let derivative := total (nth i grads []) in
        let error ch := (nth i (est ch) 0 - derivative)%R in
        let bound := (total B * INR (uses gs name))%R in
        expected Om (fun ch => nth i (est ch) 0%R) = derivative /\
        (expected Om (fun ch => error ch * error ch) <= bound * bound / INR k)%R /\
        forall eps, (0 < eps)%R -> (expected Om (fun ch => if Rle_dec eps (Rabs (error ch)) then 1 else 0) <= bound * bound / INR k / (eps * eps))%R.
  Proof.
    intro NP. set (J := bwd_points vals gs split key P).
    assert (PT : forall q, (forall g, In g q -> gclass g <> KPhase) -> forallb is_pytree q = true).
    { intros q H. apply forallb_forall. intros g Hg. specialize (H g Hg). unfold is_pytree. destruct (gclass g); congruence. }
    assert (NP' : forall g, In g gs -> gclass g <> KPhase) by (apply Forall_forall; exact NP).
    assert (PS : forall i s g, In g (shift_at gs i s) -> gclass g <> KPhase) by (intros i s h Hh; apply shift_at_in in Hh as (h' & Hh' & [-> | ->]); cbn [gclass shiftg]; apply NP'; exact Hh').
    assert (G1 : forall ch, gpsr_bwd (shots_eval (with_choice w ch) st obs k) (GMany gs) vals split key = Ok (map (fun name => fold_right Rplus 0%R (sums (by_shots n V k ch) J name)) keys)).
    { intro ch. apply (bwd_structure n vals gs split key Ka P NV VN FU AR ALL (jitted (shots_eval (with_choice w ch) st obs k)) (by_shots n V k ch)); [| |reflexivity].
      - intros name s kk Hn Hs. unfold jitted; cbn [gate_list]. rewrite PT by exact NP'. apply (at_shifted_value name s Hn Hs).
      - intros i p s kk Hp Hi Hs. unfold jitted; cbn [gate_list]. rewrite PT by (apply PS). apply (at_shifted_gate i p s Hp Hi Hs). }
    assert (G2 : gpsr_bwd (analytical_eval w st obs) (GMany gs) vals split key = Ok (map (fun name => fold_right Rplus 0%R (sums (in_exact n V) J name)) keys)).
    { apply (bwd_structure n vals gs split key Ka P NV VN FU AR ALL (jitted (analytical_eval w st obs)) (in_exact n V)); [| |reflexivity].
      - intros name s kk Hn Hs. unfold jitted; cbn [gate_list]. rewrite PT by exact NP'. apply (at_shifted_value name s Hn Hs).
      - intros i p s kk Hp Hi Hs. unfold jitted; cbn [gate_list]. rewrite PT by (apply PS). apply (at_shifted_gate i p s Hp Hi Hs). }
    destruct exact_gradients as (fwd0 & grads & E1 & E2 & E3 & E4 & _). specialize (E4 NP).
    assert (ET : map total grads = map (fun name => fold_right Rplus 0%R (sums (in_exact n V) J name)) keys).
    { unfold analytical_gpsr_bwd in E4. rewrite (exact_any_key w st obs gs vals split key), G2 in E4. congruence. }
    exists (fun ch => map (fun name => fold_right Rplus 0%R (sums (by_shots n V k ch) J name)) keys), grads.
    split; [intro ch; split; [apply G1|unfold keys; rewrite !map_length; reflexivity]|split; [exact E2|]].
    intros i name E. split; [apply E3; exact E|]. cbv zeta.
    assert (Hn : In name keys) by (eapply nth_error_In; exact E).
    assert (Hi : i < length grads) by (rewrite E2, <- (map_length fst vals); apply nth_error_Some; congruence).
    assert (NE : forall F : string -> R, nth i (map F keys) 0%R = F name) by (intro F; apply nth_error_nth; rewrite nth_error_map; unfold keys; rewrite E; reflexivity).
    assert (TD : total (nth i grads []) = fold_right Rplus 0%R (sums (in_exact n V) J name)).
    { rewrite <- (NE (fun name => fold_right Rplus 0%R (sums (in_exact n V) J name))), <- ET. symmetry. apply (nth_map_lt _ _ _ _ []). exact Hi. }
    rewrite TD. clear TD.
    assert (FR : forall Y, fold_right Rplus 0%R (sums Y J name) = rsum (seq 0 (length Ka)) (fun j => rsum (J name) (fun e => halfdiff Y e (nth j Ka kid)))).
    { intro Y. rewrite total_fold. unfold total. rewrite <- rsum_nth. unfold sums. fold Ka. rewrite map_length. apply rsum_ext. intros j Hj. apply in_seq in Hj. rewrite (nth_map_lt (fun A : op => rsum (J name) (fun e => halfdiff Y e A)) Ka j 0%R kid) by lia. reflexivity. }
    assert (PE : forall j, In j (seq 0 (length Ka)) ->
        expected Om (fun ch => rsum (J name) (fun e => halfdiff (by_shots n V k ch) e (nth j Ka kid))) = rsum (J name) (fun e => halfdiff (in_exact n V) e (nth j Ka kid)) /\
        rms Om (fun ch => rsum (J name) (fun e => halfdiff (by_shots n V k ch) e (nth j Ka kid)) - rsum (J name) (fun e => halfdiff (in_exact n V) e (nth j Ka kid)))%R (INR (uses gs name) * (nth j B 0 / sqrt (INR k)))%R).
    { intros j Hj. apply in_seq in Hj. destruct (bound_at j) as (b & EB & W & Pb); [lia|]. rewrite (nth_error_nth B j 0%R EB).
      destruct (points_error (J name) (nth j Ka kid) b) as [M1 M2]; [intros e He; apply (bwd_points_fair name e Hn He)|exact W|exact Pb|]. split; [exact M1|].
      unfold J in M2 at 3. rewrite (bwd_points_length n vals gs split key P FU ALL name Hn) in M2. exact M2. }
    assert (RM : rms Om (fun ch => nth i (map (fun name => fold_right Rplus 0%R (sums (by_shots n V k ch) J name)) keys) 0 - fold_right Rplus 0 (sums (in_exact n V) J name))%R (total B * INR (uses gs name) / sqrt (INR k))).
    { eapply rms_ext; [| |apply (rms_sum Om (seq 0 (length Ka)) (fun j ch => rsum (J name) (fun e => halfdiff (by_shots n V k ch) e (nth j Ka kid)) - rsum (J name) (fun e => halfdiff (in_exact n V) e (nth j Ka kid)))%R (fun j => INR (uses gs name) * (nth j B 0 / sqrt (INR k)))%R weights_ok)].
      - intro ch. cbv beta. rewrite rsum_minus, NE, !FR. reflexivity.
      - rewrite (rsum_ext _ _ (fun j => INR (uses gs name) / sqrt (INR k) * nth j B 0)%R) by (intros; unfold Rdiv; ring). rewrite rsum_scale.
        assert (LB : length Ka = length B) by (rewrite (F2_len HB), (F2_len spectra); reflexivity). rewrite LB, rsum_nth. unfold total, Rdiv. ring.
      - intros j Hj. apply PE; exact Hj. }
    split; [|split].
    - rewrite (expected_eq Om _ (fun ch => rsum (seq 0 (length Ka)) (fun j => rsum (J name) (fun e => halfdiff (by_shots n V k ch) e (nth j Ka kid))))) by (intro ch; rewrite NE; apply FR).
      rewrite (expected_sum Om _ (fun j ch => rsum (J name) (fun e => halfdiff (by_shots n V k ch) e (nth j Ka kid)))). rewrite FR. apply rsum_ext. intros j Hj. apply PE; exact Hj.
    - rewrite <- square_div. apply RM.
    - intros eps He. eapply Rle_trans; [apply (chebyshev Om (fun ch => nth i (map (fun name => fold_right Rplus 0%R (sums (by_shots n V k ch) J name)) keys) 0%R)); [exact weights_ok|exact He]|].
      apply Rmult_le_compat_r; [left; apply Rinv_0_lt_compat, Rmult_lt_0_compat; exact He|]. rewrite <- square_div. apply RM.
  Qed.
End Results.

Lemma c122_jvp_all : forall w n vals circuit gs st l K ev V ls Ks evs B k tangents uuid split key Om,
    set_order (set_iter w) -> numeric_values vals -> vals <> [] -> sequence_of circuit gs -> gs <> [] -> Forall (usable n vals) gs -> Forall dense_gate gs -> Forall noise_ok gs ->
    (forall g, In g gs -> names_of_gate g <> [] -> plain_rotation g) -> (forall name, In name (map fst vals) -> In name (flat_map names_of_gate gs)) ->
    state_of n st -> diagonalised w n K ev V -> 0 < k ->
    (forall v, jointly_measured w n v V (l :: ls) (K :: Ks) (ev :: evs) /\ Forall2 (readable w n v st gs) (l :: ls) (K :: Ks)) ->
    (forall gs' v out key', shifted_evaluation vals gs gs' v -> run w (OSeq (map OGate gs')) st v = Ok (Some out) ->
       fair_sampling Om key' (outcome_distribution n (entry V) out) k /\ independent_draws Om key' (outcome_distribution n (entry V) out) k) ->
    Forall2 within B (ev :: evs) -> length tangents = length vals -> (forall i j, uuid i = uuid j -> i = j) ->
    exists fwd est grads, (forall ch, expectation (with_choice w ch) st circuit (l :: ls) vals GPSR (Z.of_nat k) key = Ok (fwd ch)) /\
    (forall ch, finite_shots_gpsr_jvp (with_choice w ch) st (GMany gs) (l :: ls) vals tangents k uuid split key = Ok (fwd ch, est ch) /\ length (est ch) = length (l :: ls)) /\
    length grads = length vals /\
    (forall i name, nth_error (map fst vals) i = Some name -> gradient_at (fun v => expectation w st circuit (l :: ls) v GPSR 0 key) vals name (nth i grads [])) /\
    forall j, j < length (l :: ls) ->
      let derivative := nth j (directional (length (l :: ls)) grads tangents) 0%R in
      let error ch := (nth j (est ch) 0 - derivative)%R in
      let bound := (nth j B 0 * tangent_size gs (map fst vals) tangents)%R in
      expected Om (fun ch => nth j (est ch) 0%R) = derivative /\
      (expected Om (fun ch => error ch * error ch) <= bound * bound / INR k)%R /\
      forall eps, (0 < eps)%R -> (expected Om (fun ch => if Rle_dec eps (Rabs (error ch)) then 1 else 0) <= bound * bound / INR k / (eps * eps))%R.
Proof. intros w n vals circuit gs st l K ev V ls Ks evs B k tangents uuid split key Om SO NV VN HQ NG FU FD FN AR ALL HS HD Hk HO HF HB LT UI. eapply c122_jvp; eassumption. Qed.
Lemma c122_bwd_all : forall w n vals circuit gs st l K ev V ls Ks evs B k split key Om,
    set_order (set_iter w) -> numeric_values vals -> vals <> [] -> sequence_of circuit gs -> gs <> [] -> Forall (usable n vals) gs -> Forall dense_gate gs -> Forall noise_ok gs -> Forall (fun g => gclass g <> KPhase) gs ->
    (forall g, In g gs -> names_of_gate g <> [] -> plain_rotation g) -> (forall name, In name (map fst vals) -> In name (flat_map names_of_gate gs)) ->
    state_of n st -> diagonalised w n K ev V -> 0 < k ->
    (forall v, jointly_measured w n v V (l :: ls) (K :: Ks) (ev :: evs) /\ Forall2 (readable w n v st gs) (l :: ls) (K :: Ks)) ->
    (forall gs' v out key', shifted_evaluation vals gs gs' v -> run w (OSeq (map OGate gs')) st v = Ok (Some out) ->
       fair_sampling Om key' (outcome_distribution n (entry V) out) k /\ independent_draws Om key' (outcome_distribution n (entry V) out) k) ->
    Forall2 within B (ev :: evs) ->
    exists est grads, (forall ch, finite_shots_gpsr_bwd (with_choice w ch) st (GMany gs) (l :: ls) vals k split key = Ok (est ch) /\ length (est ch) = length vals) /\
    length grads = length vals /\
    forall i name, nth_error (map fst vals) i = Some name ->
      gradient_at (fun v => expectation w st circuit (l :: ls) v GPSR 0 key) vals name (nth i grads []) /\
      let derivative := total (nth i grads []) in
      let error ch := (nth i (est ch) 0 - derivative)%R in
      let bound := (total B * INR (uses gs name))%R in
      expected Om (fun ch => nth i (est ch) 0%R) = derivative /\
      (expected Om (fun ch => error ch * error ch) <= bound * bound / INR k)%R /\
      forall eps, (0 < eps)%R -> (expected Om (fun ch => if Rle_dec eps (Rabs (error ch)) then 1 else 0) <= bound * bound / INR k / (eps * eps))%R.
Proof. intros w n vals circuit gs st l K ev V ls Ks evs B k split key Om SO NV VN HQ NG FU FD FN NP AR ALL HS HD Hk HO HF HB. apply (c122_bwd w n vals circuit gs st l K ev V ls Ks evs B k (fun _ => EmptyString) split key Om); assumption. Qed.
