(** * Finite-shot parameter-shift gradients *)
From Coq Require Import String List Arith Bool Reals Lia Lra ZArith Permutation.
From Verif Require Import Cplx Py PyFacts Ndarray OperatorUtils Sparse Matrices Noise Gates Apply Composite Conversion Shots Gpsr Api
  Spec SpecFacts GateSpec PropSpec NoiseSpec SampleSpec ExpectSpec ShotsSpec GpsrSpec GpsrSpec2 AlgebraFacts SampleThm SeqThm ExpectThm ExpectThm2 ShotsThm ShotsThm2 GpsrFacts GpsrThm GpsrThm2 GpsrThm3.
Import ListNotations.
Local Open Scope nat_scope.

Definition in_mean (Om : space) (e : sampler -> list R) (d : list R) : Prop :=
  (forall ch, length (e ch) = length d) /\ forall i, i < length d -> expected Om (fun ch => nth i (e ch) 0%R) = nth i d 0%R.
Lemma sm_ok : forall Om F G e d, (forall ch, F ch = Ok (e ch)) -> G = Ok d -> in_mean Om e d -> same_in_mean Om F G.
Proof. intros Om F G e d HF HG [L E]. right. exists e, d. split; [intro ch; split; [apply HF|apply L]|split; [exact HG|exact E]]. Qed.
Lemma sm_cases : forall Om F G, same_in_mean Om F G -> (exists e, (forall ch, F ch = Err e) /\ G = Err e) \/ (exists e d, (forall ch, F ch = Ok (e ch)) /\ G = Ok d /\ in_mean Om e d).
Proof.
  intros Om F G [H|(e & d & H1 & H2 & H3)]; [left; exact H|right]. exists e, d. split; [intro ch; apply H1|split; [exact H2|split; [intro ch; apply H1|exact H3]]].
Qed.
Lemma expected_zero : forall Om, expected Om (fun _ => 0%R) = 0%R.
Proof. intro Om. unfold expected. rewrite (rsum_ext _ _ (fun _ => (0 * 0)%R)) by (intros; ring). rewrite rsum_scale; ring. Qed.
Lemma expected_eq : forall Om f g, (forall ch, f ch = g ch) -> expected Om f = expected Om g.
Proof. intros Om f g H. apply expected_ext. apply Forall_forall. intros; apply H. Qed.

(** the operations on vectors *)
Lemma nth_zip : forall (op : R -> R -> R) a b i, i < length a -> i < length b -> nth i (map (fun xy => op (fst xy) (snd xy)) (combine a b)) 0%R = op (nth i a 0%R) (nth i b 0%R).
Proof.
  intros op a. induction a as [|x a IH]; intros [|y b] [|i] Ha Hb; cbn [length] in *; try lia; [reflexivity|]. cbn [combine map nth]. apply IH; lia.
Qed.
Lemma im_linear : forall Om (a b : R) e d e' d', in_mean Om e d -> in_mean Om e' d' ->
    in_mean Om (fun ch => map (fun xy => (a * fst xy + b * snd xy)%R) (combine (e ch) (e' ch))) (map (fun xy => (a * fst xy + b * snd xy)%R) (combine d d')).
Proof.
  intros Om a b e d e' d' [L1 H1] [L2 H2]. split.
  - intro ch. rewrite !map_length, !combine_length, L1, L2. reflexivity.
  - intros i Hi. rewrite map_length, combine_length in Hi. rewrite (nth_zip (fun x y => (a * x + b * y)%R)) by lia.
    rewrite (expected_eq Om _ (fun ch => (a * nth i (e ch) 0 + b * nth i (e' ch) 0)%R)).
    + rewrite expected_add, !expected_scale, H1, H2 by lia. reflexivity.
    + intro ch. rewrite (nth_zip (fun x y => (a * x + b * y)%R)) by (rewrite ?L1, ?L2; lia). reflexivity.
Qed.
Lemma im_ext : forall Om e e' d d', (forall ch, e ch = e' ch) -> d = d' -> in_mean Om e d -> in_mean Om e' d'.
Proof.
  intros Om e e' d d' H <- [L E]. split; [intro ch; rewrite <- H; apply L|]. intros i Hi. rewrite <- (E i Hi). apply expected_eq. intro ch; rewrite H; reflexivity.
Qed.
Lemma im_vadd : forall Om e d e' d', in_mean Om e d -> in_mean Om e' d' -> in_mean Om (fun ch => vadd (e ch) (e' ch)) (vadd d d').
Proof.
  intros Om e d e' d' H H'. eapply im_ext; [| |exact (im_linear Om 1 1 _ _ _ _ H H')]; intros; unfold vadd; apply map_ext; intros; ring.
Qed.
Lemma im_fold : forall Om es ds, Forall2 (in_mean Om) es ds -> forall e d, in_mean Om e d ->
    in_mean Om (fun ch => fold_left vadd (map (fun e => e ch) es) (e ch)) (fold_left vadd ds d).
Proof.
  intros Om es ds F. induction F as [|e' d' es ds H F IH]; intros e d He; cbn [map fold_left]; [exact He|]. apply (IH (fun ch => vadd (e ch) (e' ch))). apply im_vadd; assumption.
Qed.
Lemma im_sum : forall Om e d, in_mean Om e d -> expected Om (fun ch => fold_right Rplus 0%R (e ch)) = fold_right Rplus 0%R d.
Proof.
  intros Om e d [L E]. assert (S : forall l, fold_right Rplus 0%R l = rsum (seq 0 (length l)) (fun i => nth i l 0%R)).
  { intro l. rewrite rsum_nth. apply total_fold. }
  rewrite S. rewrite (expected_eq Om _ (fun ch => rsum (seq 0 (length d)) (fun i => nth i (e ch) 0%R))) by (intro ch; rewrite S, L; reflexivity).
  rewrite expected_sum. apply rsum_ext. intros i Hi. apply in_seq in Hi. apply E; lia.
Qed.
Lemma im_sums : forall Om es ds, Forall2 (in_mean Om) es ds ->
    in_mean Om (fun ch => map (fun g => fold_right Rplus 0%R g) (map (fun e => e ch) es)) (map (fun g => fold_right Rplus 0%R g) ds).
Proof.
  intros Om es ds F. split.
  - intro ch. rewrite !map_length. apply (F2_len F).
  - induction F as [|e d es ds H F IH]; intros i Hi; cbn [map length] in *; [lia|]. destruct i as [|i]; cbn [nth]; [apply im_sum; exact H|apply IH; lia].
Qed.
Lemma shift_rules_spec : forall gap fu fd, shift_rules gap fu fd =
    let den := (4 * sin (gap * shift_pi2 / 2))%R in
    if Req_EM_T den 0 then (match combine fu fd with [] => Ok [] | _ => Err NotANumber end) else Ok (map (fun ud => (gap / den * fst ud + - (gap / den) * snd ud)%R) (combine fu fd)).
Proof.
  intros gap fu fd. cbv zeta. unfold shift_rules, shift_rule. destruct (Req_EM_T _ 0) as [Z|NZ].
  - destruct (combine fu fd); reflexivity.
  - induction (combine fu fd) as [|[u d] l IH]; [reflexivity|]. cbn [mapM bind map fst snd]. rewrite IH; cbn [bind]. f_equal. f_equal. unfold Rdiv; ring.
Qed.
Lemma sm_rules : forall Om gap Fu Gu Fd Gd, same_in_mean Om Fu Gu -> same_in_mean Om Fd Gd ->
    same_in_mean Om (fun ch => let! fu := Fu ch in let! fd := Fd ch in shift_rules gap fu fd) (let! fu := Gu in let! fd := Gd in shift_rules gap fu fd).
Proof.
  intros Om gap Fu Gu Fd Gd HU HD. apply sm_cases in HU as [(e & E1 & E2)|(eu & du & Eu & Du & Mu)].
  { left. exists e. split; [intro ch; rewrite E1; reflexivity|rewrite E2; reflexivity]. }
  apply sm_cases in HD as [(e & E1 & E2)|(ed & dd & Ed & Dd & Md)].
  { left. exists e. split; [intro ch; rewrite Eu; cbn [bind]; rewrite E1; reflexivity|rewrite Du; cbn [bind]; rewrite E2; reflexivity]. }
  rewrite Du, Dd; cbn [bind]. rewrite shift_rules_spec. cbv zeta. destruct (Req_EM_T _ 0) as [Z|NZ] eqn:EZ.
  - destruct (combine du dd) as [|x l] eqn:EC.
    + apply (sm_ok _ _ _ (fun _ => []) []); [|reflexivity|split; [reflexivity|intros i Hi; cbn in Hi; lia]]. intro ch. rewrite Eu, Ed; cbn [bind]. rewrite shift_rules_spec. cbv zeta. rewrite EZ.
      assert (L : length (combine (eu ch) (ed ch)) = 0) by (rewrite combine_length, (proj1 Mu), (proj1 Md), <- combine_length, EC; reflexivity).
      destruct (combine (eu ch) (ed ch)); [reflexivity|discriminate].
    + left. exists NotANumber. split; [|reflexivity]. intro ch. rewrite Eu, Ed; cbn [bind]. rewrite shift_rules_spec. cbv zeta. rewrite EZ.
      assert (L : length (combine (eu ch) (ed ch)) = S (length l)) by (rewrite combine_length, (proj1 Mu), (proj1 Md), <- combine_length, EC; reflexivity).
      destruct (combine (eu ch) (ed ch)); [discriminate|reflexivity].
  - eapply sm_ok; [|reflexivity|apply im_linear; [exact Mu|exact Md]]. intro ch. cbv beta. rewrite Eu, Ed; cbn [bind]. rewrite shift_rules_spec. cbv zeta. rewrite EZ. reflexivity.
Qed.
(** lists of components *)
Lemma sm_mapM : forall Om {A} (F : A -> sampler -> res (list R)) (G : A -> res (list R)) l, (forall a, In a l -> same_in_mean Om (F a) (G a)) ->
    (exists e, (forall ch, mapM (fun a => F a ch) l = Err e) /\ mapM G l = Err e) \/
    (exists es ds, (forall ch, mapM (fun a => F a ch) l = Ok (map (fun e => e ch) es)) /\ mapM G l = Ok ds /\ Forall2 (in_mean Om) es ds).
Proof.
  intros Om A F G l. induction l as [|a l IH]; intro H.
  - right. exists [], []. split; [reflexivity|split; [reflexivity|constructor]].
  - destruct (sm_cases _ _ _ (H a (or_introl eq_refl))) as [(e & E1 & E2)|(e & d & E1 & E2 & M)].
    { left. exists e. split; [intro ch; cbn [mapM]; rewrite E1; reflexivity|cbn [mapM]; rewrite E2; reflexivity]. }
    destruct IH as [(x & X1 & X2)|(es & ds & X1 & X2 & X3)]; [intros b Hb; apply H; right; exact Hb| |].
    + left. exists x. split; [intro ch; cbn [mapM]; rewrite E1; cbn [bind]; rewrite X1; reflexivity|cbn [mapM]; rewrite E2; cbn [bind]; rewrite X2; reflexivity].
    + right. exists (e :: es), (d :: ds). split; [intro ch; cbn [mapM map]; rewrite E1; cbn [bind]; rewrite X1; reflexivity|split; [cbn [mapM]; rewrite E2; cbn [bind]; rewrite X2; reflexivity|constructor; assumption]].
Qed.
Lemma sm_ext : forall Om F F' G G', (forall ch, F ch = F' ch) -> G = G' -> same_in_mean Om F G -> same_in_mean Om F' G'.
Proof.
  intros Om F F' G G' H <- [(e & E1 & E2)|(e & d & E1 & E2)]; [left; exists e|right; exists e, d]; (split; [intro ch; rewrite <- H; apply E1|exact E2]).
Qed.
Lemma sm_err : forall Om e, same_in_mean Om (fun _ => Err e) (Err e).
Proof. intros Om e. left. exists e. split; reflexivity. Qed.

(** ** the rule with any evaluator that is right in the mean *)
Definition eval_right (Om : space) (f : sampler -> evaluator) (g : evaluator) (vals : values) (gs : list gate) : Prop :=
  forall gs' v key key', shifted_evaluation vals gs gs' v -> same_in_mean Om (fun ch => f ch (GMany gs') v key) (g (GMany gs') v key').
Lemma jit_right : forall Om f g vals gs, eval_right Om f g vals gs -> eval_right Om (fun ch => jitted (f ch)) (jitted g) vals gs.
Proof. intros Om f g vals gs H gs' v key key' S. unfold jitted. destruct (forallb is_pytree _); [apply H; exact S|apply sm_err]. Qed.
Lemma step_right : forall Om f g vals gs split split' name gap key key', eval_right Om f g vals gs ->
    same_in_mean Om (fun ch => jvp_step (f ch) (GMany gs) vals split name gap key) (jvp_step g (GMany gs) vals split' name gap key').
Proof.
  intros Om f g vals gs split split' name gap key key' H. unfold jvp_step. unfold bump. destruct (lookup vals name) as [v|e] eqn:L; cbn [bind]; [|apply sm_err].
  destruct v as [x| |]; cbn [num bind]; try apply sm_err. apply sm_rules; apply H; (eapply se_value; [exact L|]); [left; reflexivity|right; reflexivity].
Qed.
Lemma shift_right : forall Om f g vals gs split split' i key key', eval_right Om f g vals gs ->
    same_in_mean Om (fun ch => shift_jvp (f ch) gs vals split i key) (shift_jvp g gs vals split' i key').
Proof.
  intros Om f g vals gs split split' i key key' H. unfold shift_jvp. destruct (match nth_error gs i with None => _ | Some g => _ end) as [gap|e]; cbn [bind]; [|apply sm_err].
  destruct (alter_gate_sequence gs i shift_pi2) as [gu|e] eqn:EU; cbn [bind]; [|apply sm_err].
  destruct (alter_gate_sequence gs i (- shift_pi2)) as [gd|e] eqn:ED; cbn [bind].
  - apply sm_rules; apply H; (eapply se_gate; [|eassumption]); [left; reflexivity|right; reflexivity].
  - assert (HU : same_in_mean Om (fun ch => f ch (GMany gu) vals (split key 2 0)) (g (GMany gu) vals (split' key' 2 0))) by (apply H; eapply se_gate; [left; reflexivity|exact EU]).
    apply sm_cases in HU as [(e' & E1 & E2)|(eu & du & E1 & E2 & _)]; left; eexists; (split; [intro ch; rewrite E1; reflexivity|rewrite E2; reflexivity]).
Qed.
Lemma repeated_right : forall Om f g vals gs split split' name key key', eval_right Om f g vals gs ->
    same_in_mean Om (fun ch => jvp_component_repeated (f ch) gs vals split name key) (jvp_component_repeated g gs vals split' name key').
Proof.
  intros Om f g vals gs split split' name key key' H. unfold jvp_component_repeated. set (inds := param_indices gs name).
  destruct (sm_mapM Om (fun ki ch => shift_jvp (f ch) gs vals split (snd ki) (split key (length inds) (fst ki))) (fun ki => shift_jvp g gs vals split' (snd ki) (split' key' (length inds) (fst ki))) (combine (seq 0 (length inds)) inds))
    as [(e & E1 & E2)|(es & ds & E1 & E2 & F)].
  - intros ki _. apply shift_right; exact H.
  - left. exists e. split; [intro ch; rewrite E1; reflexivity|rewrite E2; reflexivity].
  - destruct F as [|e d es ds M F].
    + left. exists ValueError. split; [intro ch; rewrite E1; reflexivity|rewrite E2; reflexivity].
    + eapply sm_ok; [|rewrite E2; reflexivity|apply (im_fold Om es ds F e d M)]. intro ch. cbv beta. rewrite E1; cbn [bind map]. reflexivity.
Qed.
Lemma bwd_right : forall Om f g vals gs split split' key key', eval_right Om f g vals gs ->
    same_in_mean Om (fun ch => gpsr_bwd (f ch) (GMany gs) vals split key) (gpsr_bwd g (GMany gs) vals split' key').
Proof.
  intros Om f g vals gs split split' key key' H0. assert (H := jit_right _ _ _ _ _ H0). unfold gpsr_bwd. set (keys := map fst vals).
  destruct (gpsr_branch (GMany gs) keys) as [| |e]; [| |apply sm_err].
  - destruct keys as [|k0 ks] eqn:EK; [apply sm_err|]. rewrite <- EK.
    destruct (sm_mapM Om (fun kn ch => jvp_component (jitted (f ch)) (GMany gs) vals split (snd kn) (split key (length keys) (fst kn)))
       (fun kn => jvp_component (jitted g) (GMany gs) vals split' (snd kn) (split' key' (length keys) (fst kn))) (combine (seq 0 (length keys)) keys)) as [(e & E1 & E2)|(es & ds & E1 & E2 & F)].
    + intros kn _. apply (step_right Om (fun ch => jitted (f ch)) (jitted g) vals gs split split' (snd kn) default_gap); exact H.
    + left. exists e. split; [intro ch; rewrite E1; reflexivity|rewrite E2; reflexivity].
    + eapply sm_ok; [|rewrite E2; reflexivity|apply (im_sums Om es ds F)]. intro ch. cbv beta. rewrite E1. reflexivity.
  - destruct keys as [|k0 ks] eqn:EK; [apply sm_err|]. rewrite <- EK.
    destruct (sm_mapM Om (fun kn ch => jvp_component_repeated (jitted (f ch)) gs vals split (snd kn) (split key (length keys) (fst kn)))
       (fun kn => jvp_component_repeated (jitted g) gs vals split' (snd kn) (split' key' (length keys) (fst kn))) (combine (seq 0 (length keys)) keys)) as [(e & E1 & E2)|(es & ds & E1 & E2 & F)].
    + intros kn _. apply (repeated_right Om (fun ch => jitted (f ch)) (jitted g)); exact H.
    + left. exists e. split; [intro ch; rewrite E1; reflexivity|rewrite E2; reflexivity].
    + eapply sm_ok; [|rewrite E2; reflexivity|apply (im_sums Om es ds F)]. intro ch. cbv beta. rewrite E1. reflexivity.
Qed.

(** the finite-shot evaluation *)
Lemma altered_param : forall gs i s gs', Forall (fun g => gclass g <> KPhase) gs -> alter_gate_sequence gs i s = Ok gs' -> gs' = shift_at gs i s.
Proof.
  intros gs i s gs' NP E. assert (E' := E). unfold alter_gate_sequence in E. destruct (nth_error gs i) as [g|] eqn:EN; [|discriminate].
  assert (C : gclass g = KParam).
  { rewrite Forall_forall in NP. assert (N := NP g (nth_error_In _ _ EN)). unfold to_shift, gate_flatten in E. destruct (gclass g); try reflexivity; try congruence; discriminate. }
  rewrite (alter_param gs i s g EN C) in E'. injection E' as <-; reflexivity.
Qed.

Lemma shifted_usable : forall n vals gs gs' v, Forall (fun g => gclass g <> KPhase) gs -> Forall (usable n vals) gs -> Forall dense_gate gs -> Forall noise_ok gs -> gs <> [] ->
    shifted_evaluation vals gs gs' v -> Forall (usable n v) gs' /\ Forall dense_gate gs' /\ Forall noise_ok gs' /\ gs' <> [] /\ (forall st, mixes st gs' -> mixes st gs).
Proof.
  intros n vals gs gs' v NP FU FD FN NG S. destruct S as [|name x s L _|i s gs' _ E].
  - auto.
  - split; [|auto]. eapply Forall_impl; [|exact FU]. intros g; apply usable_at.
  - apply altered_param in E; [|exact NP]. subst gs'. split; [apply shift_at_Forall; [intro h; apply usable_shiftg|exact FU]|].
    split; [apply shift_at_Forall; [intros h Hh; exact Hh|exact FD]|]. split; [apply shift_at_Forall; [intros h Hh; exact Hh|exact FN]|].
    split; [apply shift_at_nonempty; exact NG|]. intros st0. apply shift_at_mixes.
Qed.
Lemma shots_right : forall w n vals gs st l K ev V ls Ks evs k Om,
    set_order (set_iter w) -> gs <> [] -> Forall (usable n vals) gs -> Forall dense_gate gs -> Forall noise_ok gs -> Forall (fun g => gclass g <> KPhase) gs ->
    state_of n st -> diagonalised w n K ev V -> 0 < k ->
    (forall gs' v, shifted_evaluation vals gs gs' v -> jointly_measured w n v V (l :: ls) (K :: Ks) (ev :: evs) /\ Forall2 (readable w n v st gs) (l :: ls) (K :: Ks)) ->
    (forall gs' v out key, shifted_evaluation vals gs gs' v -> run w (OSeq (map OGate gs')) st v = Ok (Some out) -> fair_sampling Om key (outcome_distribution n (entry V) out) k) ->
    eval_right Om (fun ch => shots_eval (with_choice w ch) st (l :: ls) k) (analytical_eval w st (l :: ls)) vals gs.
Proof.
  intros w n vals gs st l K ev V ls Ks evs k Om SO NG FU FD FN NP HS HD Hk HO HF gs' v key key' S.
  destruct (HO gs' v S) as [HJ HR]. destruct (shifted_usable n vals gs gs' v NP FU FD FN NG S) as (FU' & FD' & FN' & NG' & MX).
  destruct (any_choice w n v (OSeq (map OGate gs')) gs' st l K ev V ls Ks evs AD (Z.of_nat k) key SO (seq_sequence gs') NG' FU' FD' FN' HS HD HJ (or_introl eq_refl)) as (out & Er & So & Ea & E & _ & M); [lia|].
  rewrite Nat2Z.id in E. specialize (HF gs' v out key S Er).
  eapply sm_ok; [exact E| |].
  - unfold analytical_eval. apply eval_spec with (n := n) (Ks := K :: Ks); try assumption; [discriminate|]. eapply F2_impl; [|exact HR]. intros l0 K0. apply readable_mixes, MX.
  - split; [intro ch; rewrite !map_length; reflexivity|]. intros i Hi. rewrite map_length in Hi. rewrite (nth_map_lt _ _ _ _ kid) by exact Hi.
    destruct (evolve_output w n v st gs' SO NG' FU' FD' FN' HS) as (out' & Ea' & _ & M' & _). rewrite Ea in Ea'. injection Ea' as <-. rewrite <- M'.
    rewrite (expected_eq Om _ (fun ch => average (values_at (eigenvalues_in n (entry V) (nth i (K :: Ks) kid)) (ch key (outcome_distribution n (entry V) out) k)))).
    + rewrite estimate_mean; [|exact HF|apply eigenvalues_length|exact Hk]. rewrite Forall_forall in M. apply M, nth_In; exact Hi.
    + intro ch. rewrite (nth_map_lt _ _ _ _ kid) by exact Hi. reflexivity.
Qed.
Lemma c80_bwd : forall w n vals gs st l K ev V ls Ks evs k split key Om,
    set_order (set_iter w) -> gs <> [] -> Forall (usable n vals) gs -> Forall dense_gate gs -> Forall noise_ok gs -> Forall (fun g => gclass g <> KPhase) gs ->
    state_of n st -> diagonalised w n K ev V -> 0 < k ->
    (forall gs' v, shifted_evaluation vals gs gs' v -> jointly_measured w n v V (l :: ls) (K :: Ks) (ev :: evs) /\ Forall2 (readable w n v st gs) (l :: ls) (K :: Ks)) ->
    (forall gs' v out key', shifted_evaluation vals gs gs' v -> run w (OSeq (map OGate gs')) st v = Ok (Some out) -> fair_sampling Om key' (outcome_distribution n (entry V) out) k) ->
    same_in_mean Om (fun ch => finite_shots_gpsr_bwd (with_choice w ch) st (GMany gs) (l :: ls) vals k split key) (analytical_gpsr_bwd w st (GMany gs) (l :: ls) vals).
Proof.
  intros w n vals gs st l K ev V ls Ks evs k split key Om SO NG FU FD FN NP HS HD Hk HO HF. unfold finite_shots_gpsr_bwd, analytical_gpsr_bwd.
  apply (bwd_right Om (fun ch => shots_eval (with_choice w ch) st (l :: ls) k)). eapply shots_right; eassumption.
Qed.
Lemma c80_derivative : forall w n vals circuit gs st l K ev V ls Ks evs k split key Om,
    set_order (set_iter w) -> numeric_values vals -> vals <> [] -> sequence_of circuit gs -> gs <> [] -> Forall (usable n vals) gs -> Forall dense_gate gs -> Forall noise_ok gs -> Forall (fun g => gclass g <> KPhase) gs ->
    (forall g, In g gs -> names_of_gate g <> [] -> plain_rotation g) -> (forall name, In name (map fst vals) -> In name (flat_map names_of_gate gs)) ->
    state_of n st -> diagonalised w n K ev V -> 0 < k ->
    (forall v, jointly_measured w n v V (l :: ls) (K :: Ks) (ev :: evs) /\ Forall2 (readable w n v st gs) (l :: ls) (K :: Ks)) ->
    (forall gs' v out key', shifted_evaluation vals gs gs' v -> run w (OSeq (map OGate gs')) st v = Ok (Some out) -> fair_sampling Om key' (outcome_distribution n (entry V) out) k) ->
    exists est grads, (forall ch, finite_shots_gpsr_bwd (with_choice w ch) st (GMany gs) (l :: ls) vals k split key = Ok (est ch) /\ length (est ch) = length vals) /\ length grads = length vals /\
      forall i name, nth_error (map fst vals) i = Some name ->
        gradient_at (fun v => expectation w st circuit (l :: ls) v GPSR 0 key) vals name (nth i grads []) /\
        expected Om (fun ch => nth i (est ch) 0%R) = total (nth i grads []).
Proof.
  intros w n vals circuit gs st l K ev V ls Ks evs k split key Om SO NV NVN HQ NG FU FD FN NP HR HN HS HD Hk HO HF.
  assert (B := c80_bwd w n vals gs st l K ev V ls Ks evs k split key Om SO NG FU FD FN NP HS HD Hk (fun gs' v _ => HO v) HF).
  assert (GR : exists fwd grads, expectation w st circuit (l :: ls) vals GPSR 0 key = Ok fwd /\ length grads = length vals /\
      (forall i name, nth_error (map fst vals) i = Some name -> gradient_at (fun v => expectation w st circuit (l :: ls) v GPSR 0 key) vals name (nth i grads [])) /\
      analytical_gpsr_bwd w st (GMany gs) (l :: ls) vals = Ok (map total grads)).
  { destruct (ListDec.NoDup_dec string_dec (flat_map names_of_gate gs)) as [ND|ND].
    - destruct (c52_exact w n vals circuit gs st (l :: ls) key SO NV NVN HQ NG FU FD FN HS) as (fwd & grads & E1 & E2 & E3 & E4 & _); [discriminate|exact ND|intros name t _; eexists; apply HO|].
      exists fwd, grads. split; [exact E1|split; [exact E2|split; [|apply E4; exact NP]]]. intros i name E. apply E3; [exact E| |eexists; intro; apply HO].
      intros g Hg Hn. apply HR; [exact Hg|]. intro Q; rewrite Q in Hn; destruct Hn.
    - destruct (c53_exact w n vals circuit gs st (l :: ls) (K :: Ks) key SO NV NVN HQ NG FU FD FN HS) as (fwd & grads & E1 & E2 & E3 & E4 & _); [discriminate|intro; apply HO|exact HR|exact HN|exact ND|].
      exists fwd, grads. split; [exact E1|split; [exact E2|split; [exact E3|apply E4; exact NP]]]. }
  destruct GR as (fwd & grads & _ & LG & GR & EB). rewrite EB in B. apply sm_cases in B as [(e & _ & Q)|(est & d & E1 & Q & L & M)]; [discriminate|]. injection Q as <-.
  exists est, grads. rewrite map_length in L. split; [intro ch; split; [apply E1|rewrite L; exact LG]|split; [exact LG|]]. intros i name E.
  assert (Hi : i < length grads). { rewrite LG, <- (map_length fst vals). apply nth_error_Some. congruence. }
  split; [apply GR; exact E|]. rewrite M by (rewrite map_length; exact Hi). apply (nth_map_lt _ _ _ _ []); exact Hi.
Qed.

(** ** fair draws for finitely many distributions *)
Lemma list_R_eq : forall p q : list R, {p = q} + {p <> q}.
Proof. exact (list_eq_dec Req_EM_T). Qed.
Definition with_tuple (p : list R) (t : list nat) (ch : sampler) : sampler := fun key q k => if list_R_eq q p then t else ch key q k.
Definition extend (Om : space) (p : list R) (k : nat) : space :=
  flat_map (fun qc => map (fun qt => ((fst qc * fst qt)%R, with_tuple p (snd qt) (snd qc))) (tuples p k)) Om.
Lemma extend_sum : forall Om p k f, expected (extend Om p k) f = rsum Om (fun qc => fst qc * rsum (tuples p k) (fun qt => fst qt * f (with_tuple p (snd qt) (snd qc))))%R.
Proof.
  intros Om p k f. unfold expected, extend. induction Om as [|qc Om IH]; [reflexivity|]. cbn [flat_map rsum]. rewrite rsum_app, IH. f_equal.
  rewrite rsum_map', <- rsum_scale. apply rsum_ext; intros. apply Rmult_assoc.
Qed.
Lemma with_tuple_same : forall p t ch key k, with_tuple p t ch key p k = t.
Proof. intros. unfold with_tuple. destruct (list_R_eq p p); congruence. Qed.
Lemma with_tuple_other : forall p q t ch key k, q <> p -> with_tuple p t ch key q k = ch key q k.
Proof. intros. unfold with_tuple. destruct (list_R_eq q p); congruence. Qed.
Definition weights (Om : space) : Prop := rsum Om fst = 1%R /\ Forall (fun qc => (0 <= fst qc)%R) Om.
Lemma extend_weights : forall Om p k, is_distribution p -> weights Om -> weights (extend Om p k).
Proof.
  intros Om p k HP [H1 H2]. split.
  - transitivity (expected (extend Om p k) (fun _ => 1%R)); [unfold expected; apply rsum_ext; intros; ring|]. rewrite extend_sum. transitivity (rsum Om fst); [|exact H1]. apply rsum_ext. intros qc _.
    rewrite (rsum_ext (tuples p k) _ fst) by (intros; ring). rewrite tuples_total by exact HP. ring.
  - apply Forall_forall. intros x Hx. apply in_flat_map in Hx as (qc & Hq & Hx). apply in_map_iff in Hx as (qt & <- & Ht). cbn [fst].
    rewrite Forall_forall in H2. apply Rmult_le_pos; [apply H2; exact Hq|]. assert (T := tuples_ok p k HP). rewrite Forall_forall in T. apply T; exact Ht.
Qed.
Lemma extend_new : forall Om p k key, is_distribution p -> weights Om -> fair_sampling (extend Om p k) key p k /\ independent_draws (extend Om p k) key p k.
Proof.
  intros Om p k key HP HW. split.
  - destruct (extend_weights Om p k HP HW) as [W1 W2]. split; [exact W1|split; [exact W2|split]].
    + apply Forall_forall. intros x Hx. apply in_flat_map in Hx as (qc & Hq & Hx). apply in_map_iff in Hx as (qt & <- & Ht). cbn [snd]. rewrite with_tuple_same.
      assert (T := tuples_ok p k HP). rewrite Forall_forall in T. split; apply T; exact Ht.
    + intros j i Hj Hi. rewrite extend_sum. transitivity (rsum Om (fun qc => nth i p 0 * fst qc)%R); [|rewrite rsum_scale, (proj1 HW); ring]. apply rsum_ext. intros qc _. rewrite Rmult_comm. f_equal.
      rewrite <- (tuples_hit p k j i HP Hj Hi). apply rsum_ext. intros qt _. unfold drawn, hit. rewrite with_tuple_same. reflexivity.
  - intros j j' i i' Hj Hj' N Hi Hi'. rewrite extend_sum. transitivity (rsum Om (fun qc => nth i p 0 * nth i' p 0 * fst qc)%R); [|rewrite rsum_scale, (proj1 HW); ring]. apply rsum_ext. intros qc _. rewrite Rmult_comm. f_equal.
    rewrite <- (tuples_hit2 p k j j' i i' HP Hj Hj' N Hi Hi'). apply rsum_ext. intros qt _. unfold drawn, hit. rewrite with_tuple_same. reflexivity.
Qed.
Lemma extend_old : forall Om p q k key, is_distribution p -> q <> p -> fair_sampling Om key q k -> independent_draws Om key q k ->
    fair_sampling (extend Om p k) key q k /\ independent_draws (extend Om p k) key q k.
Proof.
  intros Om p q k key HP NQ (H1 & H2 & H3 & H4) HI. assert (HW : weights Om) by (split; assumption).
  assert (EX : forall f g, (forall t ch, f (with_tuple p t ch) = g ch) -> expected (extend Om p k) f = expected Om g).
  { intros f g H. rewrite extend_sum. unfold expected. apply rsum_ext. intros qc _. f_equal. rewrite (rsum_ext _ _ (fun qt => (g (snd qc) * fst qt)%R)) by (intros; rewrite H; ring).
    rewrite rsum_scale, tuples_total by exact HP. ring. }
  split.
  - destruct (extend_weights Om p k HP HW) as [W1 W2]. split; [exact W1|split; [exact W2|split]].
    + apply Forall_forall. intros x Hx. apply in_flat_map in Hx as (qc & Hq & Hx). apply in_map_iff in Hx as (qt & <- & Ht). cbn [snd]. rewrite with_tuple_other by exact NQ.
      rewrite Forall_forall in H3. apply H3; exact Hq.
    + intros j i Hj Hi. rewrite <- (H4 j i Hj Hi). apply EX. intros t ch. unfold drawn. rewrite with_tuple_other by exact NQ. reflexivity.
  - intros j j' i i' Hj Hj' N Hi Hi'. rewrite <- (HI j j' i i' Hj Hj' N Hi Hi'). apply EX. intros t ch. unfold drawn. rewrite with_tuple_other by exact NQ. reflexivity.
Qed.
Lemma fair_draws_for : forall k ps, Forall is_distribution ps -> exists Om, weights Om /\ forall key p, In p ps -> fair_sampling Om key p k /\ independent_draws Om key p k.
Proof.
  intros k ps F. induction F as [|p ps HP F (Om & HW & IH)].
  - exists [(1%R, fun _ _ _ => [])]. split; [split; [cbn; ring|constructor; [cbn; lra|constructor]]|intros key p []].
  - exists (extend Om p k). split; [apply extend_weights; assumption|]. intros key q Hq. destruct (list_R_eq q p) as [->|N]; [apply extend_new; assumption|].
    destruct Hq as [->|Hq]; [congruence|]. destruct (IH key q Hq). apply extend_old; assumption.
Qed.
Definition evaluations (vals : values) (gs : list gate) : list (list gate * values) :=
  (gs, vals) :: flat_map (fun s => flat_map (fun kv => match lookup vals (fst kv) with Ok (VNum x) => [(gs, at_value vals (fst kv) (x + s))] | _ => [] end) vals
    ++ flat_map (fun i => match alter_gate_sequence gs i s with Ok gs' => [(gs', vals)] | Err _ => [] end) (seq 0 (length gs))) [(PI / 2)%R; (- (PI / 2))%R].
Lemma evaluations_all : forall vals gs gs' v, shifted_evaluation vals gs gs' v -> In (gs', v) (evaluations vals gs).
Proof.
  intros vals gs gs' v S. unfold evaluations. destruct S as [|name x s L HS|i s gs' HS E]; [left; reflexivity|right|right]; apply in_flat_map; exists s; (split; [destruct HS as [-> | ->]; cbn; auto|]); apply in_or_app.
  - left. apply in_flat_map. assert (I := lookup_value _ _ _ L). exists (name, VNum x). split; [exact I|]. cbn [fst]. rewrite L. left; reflexivity.
  - right. apply in_flat_map. exists i. assert (i < length gs). { apply nth_error_Some. unfold alter_gate_sequence in E. destruct (nth_error gs i); congruence. }
    split; [apply in_seq; lia|]. rewrite E; left; reflexivity.
Qed.
Lemma evaluations_only : forall vals gs gs' v, In (gs', v) (evaluations vals gs) -> shifted_evaluation vals gs gs' v.
Proof.
  intros vals gs gs' v [E|H]; [injection E as <- <-; apply se_here|]. apply in_flat_map in H as (s & HS & H).
  assert (HS' : s = (PI / 2)%R \/ s = (- (PI / 2))%R) by (destruct HS as [<-|[<-|[]]]; auto).
  apply in_app_or in H as [H|H]; apply in_flat_map in H as (x & _ & H).
  - destruct (lookup vals (fst x)) as [[y| |]|] eqn:L; try contradiction. destruct H as [E|[]]. injection E as <- <-. eapply se_value; eassumption.
  - destruct (alter_gate_sequence gs x s) as [g|] eqn:E; [|contradiction]. destruct H as [Q|[]]. injection Q as <- <-. eapply se_gate; eassumption.
Qed.
Lemma c80_fair_exist : forall w n vals gs st V k,
    (forall gs' v out, shifted_evaluation vals gs gs' v -> run w (OSeq (map OGate gs')) st v = Ok (Some out) -> is_distribution (outcome_distribution n (entry V) out)) ->
    exists Om, forall gs' v out key, shifted_evaluation vals gs gs' v -> run w (OSeq (map OGate gs')) st v = Ok (Some out) ->
      fair_sampling Om key (outcome_distribution n (entry V) out) k /\ independent_draws Om key (outcome_distribution n (entry V) out) k.
Proof.
  intros w n vals gs st V k HD.
  set (dist := fun gv : list gate * values => match run w (OSeq (map OGate (fst gv))) st (snd gv) with Ok (Some out) => [outcome_distribution n (entry V) out] | _ => [] end).
  destruct (fair_draws_for k (flat_map dist (evaluations vals gs))) as (Om & _ & H).
  - apply Forall_forall. intros p Hp. apply in_flat_map in Hp as ([gs' v] & I & Hp). apply evaluations_only in I. unfold dist in Hp; cbn [fst snd] in Hp.
    destruct (run w (OSeq (map OGate gs')) st v) as [[out|]|] eqn:E; try contradiction. destruct Hp as [<-|[]]. eapply HD; eassumption.
  - exists Om. intros gs' v out key S E. apply H. apply in_flat_map. exists (gs', v). split; [apply evaluations_all; exact S|]. unfold dist; cbn [fst snd]. rewrite E. left; reflexivity.
Qed.
