(** * Derivatives of any order through the GPSR rule (C108) *)
From Coq Require Import String List Arith Bool Reals Lia Lra ZArith Permutation.
From Verif Require Import Cplx Py PyFacts Ndarray OperatorUtils ApplyOperator Sparse Matrices Noise Gates Apply Composite Conversion Shots Gpsr GpsrSecond GpsrOrder Api
  Spec SpecFacts Deriv GateSpec PropSpec NoiseSpec SampleSpec ExpectSpec GpsrSpec HessSpec OrderSpec GateFacts SampleThm SeqThm ShotsThm2 ExpectThm2 ExpectThm GpsrFacts GpsrThm HessThm.
Import ListNotations.
Local Open Scope nat_scope.

(** ** the form *)
Lemma ml_ext : forall keys ts H1 H2, (forall l, H1 l = H2 l) -> multilinear keys H1 ts = multilinear keys H2 ts.
Proof.
  intros keys ts. induction ts as [|t ts IH]; intros H1 H2 E; cbn [multilinear]; [apply E|]. apply rsum_ext. intros kt _. f_equal. apply IH. intro l. apply E.
Qed.
Lemma ml_half : forall keys ts H1 H2, ((multilinear keys H1 ts - multilinear keys H2 ts) / 2 = multilinear keys (fun l => (H1 l - H2 l) / 2) ts)%R.
Proof.
  intros keys ts. induction ts as [|t ts IH]; intros H1 H2; cbn [multilinear]; [reflexivity|]. rewrite rsum_diff2. apply rsum_ext. intros kt _. rewrite <- IH. field.
Qed.
Lemma ml_rsum : forall {A} keys ts (L : list A) (H : A -> list string -> R), multilinear keys (fun l => rsum L (fun a => H a l)) ts = rsum L (fun a => multilinear keys (H a) ts).
Proof.
  intros A keys ts. induction ts as [|t ts IH]; intros L H; cbn [multilinear]; [reflexivity|]. rewrite rsum_swap. apply rsum_ext. intros kt _. rewrite IH, rsum_mul_r. reflexivity.
Qed.
Lemma ml_keys : forall keys ts H1 H2, (forall l, incl l keys -> H1 l = H2 l) -> multilinear keys H1 ts = multilinear keys H2 ts.
Proof.
  intros keys ts. induction ts as [|t ts IH]; intros H1 H2 E; cbn [multilinear]; [apply E; intros a []|]. apply rsum_ext. intros [k x] I. f_equal. apply IH. intros l Il. apply E.
  intros a [<-|Ia]; [apply in_combine_l in I; exact I|apply Il; exact Ia].
Qed.

(** ** iterated parameter shifts *)
Section Shifts.
  Variables (n : nat) (r : op) (K : op).
  Fixpoint nd (vals : values) (gs : list gate) (l : list string) : R :=
    match l with
    | [] => mean_density n K (evolve n vals gs r)
    | a :: l' => rsum (param_indices gs a) (fun i => ((nd vals (shift_at gs i (PI / 2)) l' - nd vals (shift_at gs i (- (PI / 2))) l') / 2)%R)
    end.
  Lemma nd_swap : forall vals gs a b l, nd vals gs (a :: b :: l) = nd vals gs (b :: a :: l).
  Proof.
    intros vals gs a b l. cbn [nd].
    rewrite (rsum_ext (param_indices gs a) _ (fun i => rsum (param_indices gs b) (fun j =>
      (((nd vals (shift_at (shift_at gs i (PI / 2)) j (PI / 2)) l - nd vals (shift_at (shift_at gs i (PI / 2)) j (- (PI / 2))) l) / 2 -
        (nd vals (shift_at (shift_at gs i (- (PI / 2))) j (PI / 2)) l - nd vals (shift_at (shift_at gs i (- (PI / 2))) j (- (PI / 2))) l) / 2) / 2)%R))) by (intros i _; rewrite !param_indices_shift, rsum_diff2; reflexivity).
    rewrite rsum_swap. apply rsum_ext. intros j _. rewrite !param_indices_shift, rsum_diff2. apply rsum_ext. intros i _. rewrite !(shift_at_comm gs i j). field.
  Qed.
  Lemma nd_perm : forall l l', Permutation l l' -> forall vals gs, nd vals gs l = nd vals gs l'.
  Proof.
    intros l l' P. induction P as [|a l l' P IH|a b l|l1 l2 l3 P1 IH1 P2 IH2]; intros vals gs.
    - reflexivity.
    - cbn [nd]. apply rsum_ext. intros i _. rewrite !IH. reflexivity.
    - apply nd_swap.
    - rewrite IH1. apply IH2.
  Qed.
  Lemma nd_deriv : forall l vals gs a x, lookup vals a = Ok (VNum x) -> Forall (usable n vals) gs -> phase_or_rotation_only gs a ->
      derivable_pt_lim (fun t => nd (at_value vals a t) gs l) x (nd vals gs (a :: l)).
  Proof.
    induction l as [|b l IH]; intros vals gs a x L FU RO.
    - cbn [nd]. apply mean_gradient; assumption.
    - rewrite nd_swap. cbn [nd]. apply dpl_rsum. intros j _.
      assert (A : forall s, derivable_pt_lim (fun t => nd (at_value vals a t) (shift_at gs j s) l) x (nd vals (shift_at gs j s) (a :: l))).
      { intro s. apply IH; [exact L|apply usable_shift_at; exact FU|apply rotation_shift; exact RO]. }
      eapply dpl_eq; [|eapply dpl_ext; [|apply (derivable_pt_lim_scal _ (/ 2) _ _ (derivable_pt_lim_minus _ _ _ _ _ (A (PI / 2)%R) (A (- (PI / 2))%R)))]].
      + cbn [nd]. field.
      + intro t. unfold mult_real_fct, minus_fct. cbn [nd]. field.
  Qed.
  Lemma once_nd : forall gs, used_once gs -> forall vals name x s, lookup vals name = Ok (VNum x) -> Forall (usable n vals) gs ->
      forall l hs, Forall (usable n vals) hs -> (forall m, param_indices hs m = param_indices gs m) ->
      nd (at_value vals name (x + s)) hs l = match param_indices gs name with i :: _ => nd vals (shift_at hs i s) l | [] => nd vals hs l end.
  Proof.
    intros gs ND vals name x s L FU. induction l as [|a l IH]; intros hs FH EI; cbn [nd].
    - rewrite (once_evolve n gs ND vals name x s hs L FH EI FU r). destruct (param_indices gs name); reflexivity.
    - assert (Q : forall j u, nd (at_value vals name (x + s)) (shift_at hs j u) l = match param_indices gs name with i :: _ => nd vals (shift_at (shift_at hs i s) j u) l | [] => nd vals (shift_at hs j u) l end).
      { intros j u. rewrite IH; [|apply usable_shift_at; exact FH|intro m; rewrite param_indices_shift; apply EI]. destruct (param_indices gs name); [reflexivity|]. rewrite shift_at_comm. reflexivity. }
      rewrite (rsum_ext _ _ _ (fun j _ => f_equal2 (fun u v => ((u - v) / 2)%R) (Q j (PI / 2)%R) (Q j (- (PI / 2))%R))).
      destruct (param_indices gs name); [reflexivity|]. rewrite param_indices_shift. reflexivity.
  Qed.
End Shifts.

Lemma mixed_nd : forall w n circuit gs st obs Ks key,
    set_order (set_iter w) -> sequence_of circuit gs -> gs <> [] -> Forall dense_gate gs -> Forall noise_ok gs -> state_of n st -> obs <> [] ->
    (forall v, Forall2 (readable w n v st gs) obs Ks) -> (forall a, phase_or_rotation_only gs a) ->
    forall l vals, numeric_values vals -> Forall (usable n vals) gs -> incl l (map fst vals) ->
    mixed_derivative (fun v => expectation w st circuit obs v GPSR 0 key) l vals (map (fun K => nd n (density_of st) K vals gs l) Ks).
Proof.
  intros w n circuit gs st obs Ks key SO HQ NG FD FN HS NO FK RO. induction l as [|a l IH]; intros vals NV FU Il; cbn [mixed_derivative].
  - cbn [nd]. unfold expectation. cbn [Z.ltb Z.eqb Z.compare]. rewrite (sequence_iter _ _ HQ); cbn [bind]. apply eval_spec; auto.
  - assert (Ia : In a (map fst vals)) by (apply Il; left; reflexivity). destruct (numeric_lookup vals a NV Ia) as (x & L).
    exists (fun t => map (fun K => nd n (density_of st) K (at_value vals a t) gs l) Ks), x. split; [exact L|split].
    + intro t. split; [|rewrite !map_length; reflexivity]. apply IH; [apply numeric_at; assumption|apply usable_at_all; exact FU|].
      unfold at_value. rewrite set_keys by exact Ia. intros b Ib. apply Il. right; exact Ib.
    + intros i Hi. rewrite map_length in Hi. destruct (nth_error Ks i) as [K|] eqn:EK; [|apply nth_error_None in EK; lia].
      rewrite (nth_map_op _ _ _ _ EK). eapply dpl_ext; [intro t; symmetry; apply (nth_map_op (fun K => nd n (density_of st) K (at_value vals a t) gs l) _ _ _ EK)|].
      apply nd_deriv; auto.
Qed.

(** ** the rule when no name is shared *)
Section Once.
  Variables (w : world) (n : nat) (gs : list gate) (st : state) (obs : list (list oper)) (Ks : list op) (uuid : nat -> nat -> string).
  Hypothesis SO : set_order (set_iter w).
  Hypothesis NG : gs <> [].
  Hypothesis FD : Forall dense_gate gs.
  Hypothesis FN : Forall noise_ok gs.
  Hypothesis HS : state_of n st.
  Hypothesis NO : obs <> [].
  Hypothesis FK : forall v, Forall2 (readable w n v st gs) obs Ks.
  Hypothesis ND : used_once gs.
  Let r := density_of st.
  Let D := gpsr_derivative (analytical_eval w st obs).

  Lemma once_order_step : forall order ts,
      (forall vals k, numeric_values vals -> vals <> [] -> Forall (usable n vals) gs -> Forall (fun t => length t = length vals) ts ->
        D order ts uuid no_split (GMany gs) vals k = Ok (map (fun K => multilinear (map fst vals) (nd n r K vals gs) ts) Ks)) ->
      forall vals a k, numeric_values vals -> Forall (usable n vals) gs -> Forall (fun t => length t = length vals) ts -> In a (map fst vals) ->
        jvp_step (D order ts uuid no_split) (GMany gs) vals no_split a 2 k =
        Ok (map (fun K => multilinear (map fst vals) (fun l => nd n r K vals gs (a :: l)) ts) Ks).
  Proof.
    intros order ts HD vals a k NV FU FT I. destruct (numeric_lookup vals a NV I) as (x & L). unfold jvp_step. rewrite !(bump_ok vals a x) by exact L. cbn [bind].
    assert (KE : forall t, map fst (at_value vals a t) = map fst vals) by (intro t; unfold at_value; apply set_keys; exact I).
    assert (NE : forall t, at_value vals a t <> []). { intros t Q. specialize (KE t). rewrite Q in KE. destruct vals; [contradiction|discriminate]. }
    assert (LE : forall t, length (at_value vals a t) = length vals) by (intro t; rewrite <- (map_length fst vals), <- (KE t), map_length; reflexivity).
    rewrite !HD; auto using numeric_at, usable_at_all; try (rewrite LE; exact FT).
    cbn [bind]. rewrite shift_rules_2, half_diffs_map, !KE. f_equal. apply map_ext. intro K.
    assert (E : forall s, multilinear (map fst vals) (nd n r K (at_value vals a (x + s)) gs) ts =
        multilinear (map fst vals) (fun l => match param_indices gs a with i :: _ => nd n r K vals (shift_at gs i s) l | [] => nd n r K vals gs l end) ts).
    { intro s. apply ml_ext. intro l. apply (once_nd n r K gs ND vals a x s L FU l gs FU (fun _ => eq_refl)). }
    rewrite !E, ml_half. apply ml_ext. intro l. cbn [nd]. destruct (once_indices n vals gs a FU ND) as [Q|(i & Q)]; rewrite Q; cbn [rsum]; unfold shift_pi2; field.
  Qed.
  Lemma once_order : forall ts order vals k, length ts = order -> numeric_values vals -> vals <> [] -> Forall (usable n vals) gs -> Forall (fun t => length t = length vals) ts ->
      D order ts uuid no_split (GMany gs) vals k = Ok (map (fun K => multilinear (map fst vals) (nd n r K vals gs) ts) Ks).
  Proof.
    induction ts as [|t ts IH]; intros order vals k E NV NVN FU FT; subst order; cbn [length].
    - unfold D. cbn [gpsr_derivative]. unfold analytical_eval. apply eval_spec; auto.
    - unfold D. cbn [gpsr_derivative]. rewrite (once_branch n vals gs FU ND). cbn [bind]. fold D. inversion FT as [|? ? LT FT']; subst.
      rewrite (once_grads n gs ND (D (length ts) ts uuid no_split) (fun a => map (fun K => multilinear (map fst vals) (fun l => nd n r K vals gs (a :: l)) ts) Ks)); auto.
      + cbn [bind]. f_equal. rewrite (contract_spec (length Ks)).
        * apply (directional_map (fun a K => multilinear (map fst vals) (fun l => nd n r K vals gs (a :: l)) ts)). rewrite map_length. exact LT.
        * destruct vals; [contradiction|discriminate].
        * rewrite !map_length. exact LT.
        * apply Forall_forall. intros d Hd. apply in_map_iff in Hd as (name & <- & _). apply map_length.
      + intros a k' Ia. apply once_order_step; auto.
  Qed.
End Once.

(** ** the rule when names are shared *)
Section Shared.
  Variables (w : world) (n : nat) (vals : values) (gs : list gate) (st : state) (obs : list (list oper)) (Ks : list op) (uuid : nat -> nat -> string).
  Hypothesis SO : set_order (set_iter w).
  Hypothesis NV : numeric_values vals.
  Hypothesis NVN : vals <> [].
  Hypothesis NG : gs <> [].
  Hypothesis FU : Forall (usable n vals) gs.
  Hypothesis FD : Forall dense_gate gs.
  Hypothesis FN : Forall noise_ok gs.
  Hypothesis HS : state_of n st.
  Hypothesis NO : obs <> [].
  Hypothesis AR : all_rotations gs.
  Hypothesis FK : forall v, Forall2 (readable w n v st gs) obs Ks.
  Hypothesis ALL : forall name, In name (map fst vals) -> In name (flat_map names_of_gate gs).
  Hypothesis UI : forall k i j, uuid k i = uuid k j -> i = j.
  Let keys := map fst vals.
  Let r := density_of st.
  Let valof (p : string) : R := match lookup vals p with Ok (VNum x) => x | _ => 0%R end.
  Let nv (u : nat -> string) : values := map (fun ip => (u (fst ip), VNum (valof (snd ip)))) (temp_inds gs keys).
  Let ng (u : nat -> string) : list gate := map (rename_at keys u) (indexed gs).
  Let tts (t : list R) : list R := map (fun ip => tan_of vals t (snd ip)) (temp_inds gs keys).

  Lemma rel_ml : forall u K, (forall i j, u i = u j -> i = j) -> forall ts hs' hs, Forall (fun t => length t = length vals) ts -> Forall2 (rel n vals gs u) hs' hs ->
      (forall m, param_indices hs' m = param_indices (ng u) m) -> (forall m, param_indices hs m = param_indices gs m) ->
      multilinear (map fst (nv u)) (nd n r K (nv u) hs') (map tts ts) = multilinear keys (nd n r K vals hs) ts.
  Proof.
    intros u K Uu. induction ts as [|t ts IH]; intros hs' hs FT FR E' E; cbn [map multilinear].
    - cbn [nd]. f_equal. exact (rel_evolve n vals gs u hs' hs FR r).
    - inversion FT as [|? ? LT FT']; subst. assert (TM : combine keys t = map (fun p => (p, tan_of vals t p)) keys) by exact (t2_map vals gs u t NV LT). rewrite TM, rsum_map'.
      assert (KM : combine (map fst (nv u)) (tts t) = map (fun ip => (u (fst ip), tan_of vals t (snd ip))) (temp_inds gs keys)) by (unfold nv, tts; rewrite map_map; apply combine_map2).
      rewrite KM, rsum_map'. cbn [fst snd].
      assert (IHS : forall i s, multilinear (map fst (nv u)) (nd n r K (nv u) (shift_at hs' i s)) (map tts ts) = multilinear keys (nd n r K vals (shift_at hs i s)) ts).
      { intros i s. apply IH; [exact FT'|apply rel_shift_at; exact FR|intro m; rewrite param_indices_shift; apply E'|intro m; rewrite param_indices_shift; apply E]. }
      transitivity (rsum (temp_inds gs keys) (fun ip => (multilinear keys (fun l => ((nd n r K vals (shift_at hs (fst ip) (PI / 2)) l - nd n r K vals (shift_at hs (fst ip) (- (PI / 2))) l) / 2)%R) ts * tan_of vals t (snd ip))%R)).
      + apply rsum_ext. intros [i p] I. cbn [fst snd]. f_equal. apply temp_inds_in in I as [Ip Ii].
        rewrite <- (ml_half keys). rewrite <- !IHS. rewrite ml_half. apply ml_ext. intro l. cbn [nd]. rewrite E'. unfold ng, keys. rewrite (ng_indices n vals gs u t FU Uu LT i p Ip Ii). cbn [rsum]. apply Rplus_0_r.
      + eapply eq_trans; [apply (rsum_temp vals gs u (fun i p => (multilinear keys (fun l => ((nd n r K vals (shift_at hs i (PI / 2)) l - nd n r K vals (shift_at hs i (- (PI / 2))) l) / 2)%R) ts * tan_of vals t p)%R))|].
        apply rsum_ext. intros p _. cbn [fst snd]. rewrite <- rsum_mul_r. f_equal. cbn [nd]. rewrite E, <- ml_rsum. reflexivity.
  Qed.
  Lemma shared_order : forall t ts, Forall (fun t => length t = length vals) (t :: ts) -> gpsr_branch (GMany gs) keys = CaseRepeated ->
      gpsr_derivative (analytical_eval w st obs) (length (t :: ts)) (t :: ts) uuid no_split (GMany gs) vals 0 =
      Ok (map (fun K => multilinear keys (nd n r K vals gs) (t :: ts)) Ks).
  Proof.
    intros t ts FT HB. cbn [length gpsr_derivative]. set (u := uuid (S (length ts))). fold keys. rewrite HB. inversion FT as [|? ? LT FT']; subst.
    assert (Uu : forall i j, u i = u j -> i = j) by (intros i j; apply UI).
    rewrite (mapM_ok _ tts) by (intros t' I; apply (tt_ok vals gs u t' NV); rewrite Forall_forall in FT'; auto). cbn [bind].
    assert (LN : Forall (fun t' => length t' = length (nv u)) (map tts ts)).
    { apply Forall_forall. intros t' I. apply in_map_iff in I as (t0 & <- & _). unfold tts, nv. rewrite !map_length. reflexivity. }
    rewrite (rp_grads_gen n vals gs Ks u NV FU AR ALL _ (fun i K => multilinear keys (fun l => ((nd n r K vals (shift_at gs i (PI / 2)) l - nd n r K vals (shift_at gs i (- (PI / 2))) l) / 2)%R) ts)); [|intros i p k Hp Hi|exact HB].
    - cbn [bind]. f_equal. fold keys. rewrite (contract_spec (length Ks)).
      + rewrite (directional_map (fun a K => rsum (param_indices gs a) (fun i => multilinear keys (fun l => ((nd n r K vals (shift_at gs i (PI / 2)) l - nd n r K vals (shift_at gs i (- (PI / 2))) l) / 2)%R) ts))) by (unfold keys; rewrite map_length; exact LT).
        apply map_ext. intro K. cbn [multilinear]. apply rsum_ext. intros [a x] _. cbn [fst snd nd]. rewrite <- ml_rsum. reflexivity.
      + unfold keys. destruct vals; [contradiction|discriminate].
      + unfold keys. rewrite !map_length. exact LT.
      + apply Forall_forall. intros d Hd. apply in_map_iff in Hd as (name & <- & _). apply map_length.
    - rewrite (once_order_step w n (ng u) st obs Ks uuid (ng_once n vals gs u t NV FU AR Uu LT) (length ts) (map tts ts)).
      + f_equal. apply map_ext. intro K. rewrite <- (ml_half keys).
        assert (IHS : forall s, multilinear keys (nd n r K vals (shift_at gs i s)) ts = multilinear (map fst (nv u)) (nd n r K (nv u) (shift_at (ng u) i s)) (map tts ts)).
        { intro s. symmetry. apply rel_ml; [exact Uu|exact FT'|apply rel_shift_at, ng_rel; assumption|intro m; apply param_indices_shift|intro m; apply param_indices_shift]. }
        rewrite !IHS, ml_half. apply ml_ext. intro l. cbn [nd]. unfold ng, keys. rewrite (ng_indices n vals gs u t FU Uu LT i p Hp Hi). cbn [rsum]. apply Rplus_0_r.
      + intros vals' k' NV' NE' FU' FT2. apply (once_order w n (ng u) st obs Ks uuid SO (ng_nonempty vals gs u NG) (ng_dense vals gs u FD) (ng_noise vals gs u FN) HS NO (ng_readable w n vals gs st obs Ks u FK) (ng_once n vals gs u t NV FU AR Uu LT)); auto. apply map_length.
      + apply (nv_numeric vals gs u NV Uu).
      + apply (ng_usable n vals gs u NV FU AR Uu).
      + exact LN.
      + rewrite (nv_keys vals gs u). apply in_map_iff. exists (i, p). split; [reflexivity|apply temp_inds_in; auto].
  Qed.
End Shared.

Lemma c108_order : forall w n vals circuit gs st obs Ks key,
    set_order (set_iter w) -> numeric_values vals -> vals <> [] -> sequence_of circuit gs -> gs <> [] ->
    Forall (usable n vals) gs -> Forall dense_gate gs -> Forall noise_ok gs -> state_of n st -> obs <> [] ->
    (forall v, Forall2 (readable w n v st gs) obs Ks) ->
    (forall g, In g gs -> names_of_gate g <> [] -> plain_rotation g) ->
    used_once gs \/ (forall name, In name (map fst vals) -> In name (flat_map names_of_gate gs)) ->
    exists H : list string -> list R,
      (forall l, incl l (map fst vals) -> mixed_derivative (fun v => expectation w st circuit obs v GPSR 0 key) l vals (H l)) /\
      (forall l l', Permutation l l' -> H l = H l') /\
      forall ts uuid, Forall (fun t => length t = length vals) ts -> (forall k i j, uuid k i = uuid k j -> i = j) ->
        analytical_gpsr_derivative w st (GMany gs) obs vals ts uuid =
        Ok (map (fun i => multilinear (map fst vals) (fun l => nth i (H l) 0%R) ts) (seq 0 (length obs))).
Proof.
  intros w n vals circuit gs st obs Ks key SO NV NVN HQ NG FU FD FN HS NO FK AR CASES. set (r := density_of st).
  assert (RO : forall a, phase_or_rotation_only gs a) by (intros a g I N; left; apply AR; [exact I|]; intro Q; rewrite Q in N; contradiction).
  exists (fun l => map (fun K => nd n r K vals gs l) Ks). split; [|split].
  - intros l Il. eapply mixed_nd; eauto.
  - intros l l' P. apply map_ext. intro K. apply nd_perm; exact P.
  - intros ts uuid FT UI. unfold analytical_gpsr_derivative.
    assert (EQ : gpsr_derivative (analytical_eval w st obs) (length ts) ts uuid no_split (GMany gs) vals 0 = Ok (map (fun K => multilinear (map fst vals) (nd n r K vals gs) ts) Ks)).
    { assert (DEC : used_once gs \/ ~ used_once gs) by (unfold used_once; destruct (ListDec.NoDup_dec string_dec (flat_map names_of_gate gs)); auto).
      destruct DEC as [ND|ND]; [apply (once_order w n gs st obs Ks uuid); auto|]. destruct CASES as [C|ALL]; [contradiction|].
      destruct ts as [|t ts].
      - cbn [length gpsr_derivative multilinear nd]. unfold analytical_eval. apply eval_spec; auto.
      - apply shared_order; auto. apply (repeated_branch n vals gs FU NVN (proj1 NV) ALL ND). }
    rewrite EQ. f_equal. rewrite (F2_len (FK vals)). rewrite (list_nth (map _ Ks) (length Ks)) by apply map_length. apply map_ext_in. intros i Hi. apply in_seq in Hi.
    destruct (nth_error Ks i) as [K|] eqn:EK; [|apply nth_error_None in EK; lia]. rewrite (nth_map_op _ _ _ _ EK). apply ml_ext. intro l. symmetry. apply (nth_map_op (fun K => nd n r K vals gs l) _ _ _ EK).
Qed.
