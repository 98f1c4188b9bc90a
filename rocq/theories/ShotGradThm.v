(** * Precision of finite-shot parameter-shift gradients (C122) *)
From Coq Require Import String List Arith Bool Reals Lia Lra ZArith Permutation.
From Verif Require Import Cplx Py PyFacts Ndarray OperatorUtils Sparse Matrices Noise Gates Apply Composite Conversion Shots Gpsr Api
  Spec SpecFacts GateSpec PropSpec NoiseSpec SampleSpec ExpectSpec ShotsSpec GpsrSpec GpsrSpec2 ShotGradSpec AlgebraFacts SampleThm SeqThm ExpectThm ExpectThm2 ShotsThm ShotsThm2 GpsrFacts GpsrThm GpsrThm2 GpsrThm3 GpsrThm4 PhysThm.
Import ListNotations.
Local Open Scope nat_scope.

(** ** root mean squares *)
Definition rms (Om : space) (X : sampler -> R) (s : R) : Prop := (0 <= s)%R /\ (expected Om (fun ch => X ch * X ch) <= s * s)%R.
Definition okw (Om : space) : Prop := Forall (fun qc => (0 <= fst qc)%R) Om.
Lemma exp_mono : forall Om f g, okw Om -> (forall ch, (f ch <= g ch)%R) -> (expected Om f <= expected Om g)%R.
Proof. exact expected_le. Qed.
Lemma rms_mix : forall Om X Y s t a, okw Om -> rms Om X s -> rms Om Y t -> (0 < a)%R ->
    (expected Om (fun ch => (X ch + Y ch) * (X ch + Y ch)) <= (1 + a) * (s * s) + (1 + / a) * (t * t))%R.
Proof.
  intros Om X Y s t a W [Hs HX] [Ht HY] Ha. assert (Hi := Rinv_0_lt_compat a Ha).
  apply (Rle_trans _ (expected Om (fun ch => (1 + a) * (X ch * X ch) + (1 + / a) * (Y ch * Y ch)))%R).
  - apply exp_mono; [exact W|]. intro ch. set (x := X ch); set (y := Y ch).
    assert (E : ((1 + a) * (x * x) + (1 + / a) * (y * y) - (x + y) * (x + y) = / a * ((a * x - y) * (a * x - y)))%R) by (field; lra).
    assert (0 <= / a * ((a * x - y) * (a * x - y)))%R by (apply Rmult_le_pos; [lra|apply Rle_0_sqr]). lra.
  - rewrite expected_add, !expected_scale. apply Rplus_le_compat; apply Rmult_le_compat_l; lra.
Qed.
Lemma rms_add : forall Om X Y s t, okw Om -> rms Om X s -> rms Om Y t -> rms Om (fun ch => X ch + Y ch)%R (s + t).
Proof.
  intros Om X Y s t W HX HY. assert (Hs := proj1 HX). assert (Ht := proj1 HY). split; [lra|].
  destruct (Req_dec s 0) as [->|Ns].
  - apply Rnot_lt_le. intro L. set (E := expected Om (fun ch => (X ch + Y ch) * (X ch + Y ch))%R) in *.
    assert (B : forall a, (0 < a)%R -> (E <= (1 + / a) * (t * t))%R) by (intros a Ha; eapply Rle_trans; [apply (rms_mix Om X Y 0 t a W HX HY Ha)|]; right; ring).
    assert (P : (0 <= t * t)%R) by (apply Rle_0_sqr). assert (D : (0 < E - t * t)%R) by lra.
    assert (Q : (0 < (t * t + 1) / (E - t * t))%R) by (apply Rdiv_lt_0_compat; lra).
    specialize (B _ Q). rewrite Rinv_div in B. assert (R1 : ((E - t * t) / (t * t + 1) * (t * t) < E - t * t)%R).
    { unfold Rdiv. rewrite Rmult_assoc. rewrite <- (Rmult_1_r (E - t * t)) at 2. apply Rmult_lt_compat_l; [exact D|].
      rewrite Rmult_comm. apply (Rmult_lt_reg_r (t * t + 1)); [lra|]. rewrite Rmult_assoc, Rinv_l by lra. lra. }
    lra.
  - destruct (Req_dec t 0) as [->|Nt].
    + apply Rnot_lt_le. intro L. set (E := expected Om (fun ch => (X ch + Y ch) * (X ch + Y ch))%R) in *.
      assert (B : forall a, (0 < a)%R -> (E <= (1 + a) * (s * s))%R) by (intros a Ha; eapply Rle_trans; [apply (rms_mix Om X Y s 0 a W HX HY Ha)|]; right; ring).
      assert (P : (0 <= s * s)%R) by (apply Rle_0_sqr). assert (D : (0 < E - s * s)%R) by lra.
      assert (Q : (0 < (E - s * s) / (s * s + 1))%R) by (apply Rdiv_lt_0_compat; lra).
      specialize (B _ Q). assert (R1 : ((E - s * s) / (s * s + 1) * (s * s) < E - s * s)%R).
      { unfold Rdiv. rewrite Rmult_assoc. rewrite <- (Rmult_1_r (E - s * s)) at 2. apply Rmult_lt_compat_l; [exact D|].
        rewrite Rmult_comm. apply (Rmult_lt_reg_r (s * s + 1)); [lra|]. rewrite Rmult_assoc, Rinv_l by lra. lra. }
      lra.
    + assert (Ps : (0 < s)%R) by lra. assert (Pt : (0 < t)%R) by lra.
      eapply Rle_trans; [apply (rms_mix Om X Y s t (t / s) W HX HY (Rdiv_lt_0_compat _ _ Pt Ps))|]. right. field; lra.
Qed.
Lemma rms_ext : forall Om X Y s t, (forall ch, X ch = Y ch) -> s = t -> rms Om X s -> rms Om Y t.
Proof. intros Om X Y s t H <- [H1 H2]. split; [exact H1|]. rewrite (expected_eq Om _ (fun ch => X ch * X ch)%R); [exact H2|]. intro ch; rewrite H; reflexivity. Qed.
Lemma rms_scale : forall Om X s c, rms Om X s -> rms Om (fun ch => c * X ch)%R (Rabs c * s).
Proof.
  intros Om X s c [H1 H2]. split; [apply Rmult_le_pos; [apply Rabs_pos|exact H1]|].
  rewrite (expected_eq Om _ (fun ch => (c * c) * (X ch * X ch))%R) by (intro; ring). rewrite expected_scale.
  replace (Rabs c * s * (Rabs c * s))%R with ((Rabs c * Rabs c) * (s * s))%R by ring. rewrite <- Rabs_mult, (Rabs_right (c * c)) by (apply Rle_ge, Rle_0_sqr).
  apply Rmult_le_compat_l; [apply Rle_0_sqr|exact H2].
Qed.
Lemma rms_sum : forall Om {A} (l : list A) (X : A -> sampler -> R) (s : A -> R), okw Om -> (forall a, In a l -> rms Om (X a) (s a)) ->
    rms Om (fun ch => rsum l (fun a => X a ch)) (rsum l s).
Proof.
  intros Om A l X s W. induction l as [|a l IH]; intro H; cbn [rsum].
  - split; [lra|]. rewrite (expected_eq Om _ (fun _ => 0%R)) by (intro; ring). rewrite GpsrThm4.expected_zero. lra.
  - apply (rms_add Om (X a) (fun ch => rsum l (fun a => X a ch))); [exact W|apply H; left; reflexivity|apply IH; intros b Hb; apply H; right; exact Hb].
Qed.
Lemma rms_weaken : forall Om X s t, rms Om X s -> (s <= t)%R -> rms Om X t.
Proof. intros Om X s t [H1 H2] L. split; [lra|]. eapply Rle_trans; [exact H2|]. apply Rmult_le_compat; lra. Qed.

(** the error of one estimate *)
Lemma second_moment_bound : forall Om key p k a b, fair_sampling Om key p k -> length a = length p -> 0 < k -> within b a -> (weighted p (map (fun x => x * x) a) <= b * b)%R.
Proof.
  intros Om key p k a b HF L Hk HB. rewrite <- (draw_mean Om key p k (map (fun x => x * x)%R a) 0 HF) by (rewrite ?map_length; assumption).
  destruct HF as (H1 & H2 & H3 & _). rewrite <- (expected_const Om (b * b) H1). apply expected_le; [exact H2|]. intro ch.
  destruct (lt_dec (nth 0 (ch key p k) (length p)) (length a)) as [Q|Q].
  - rewrite (nth_map_lt _ _ _ _ 0%R) by exact Q. unfold within in HB. rewrite Forall_forall in HB. assert (B := HB _ (nth_In a 0%R Q)). set (x := nth _ a 0%R) in *.
    replace (x * x)%R with (Rabs x * Rabs x)%R by (rewrite <- Rabs_mult; apply Rabs_right, Rle_ge, Rle_0_sqr). apply Rmult_le_compat; try apply Rabs_pos; exact B.
  - rewrite nth_overflow by (rewrite map_length; lia). apply Rle_0_sqr.
Qed.
Lemma estimate_rms : forall Om key p k a b, fair_sampling Om key p k -> independent_draws Om key p k -> length a = length p -> 0 < k -> within b a -> (0 <= b)%R ->
    rms Om (fun ch => average (values_at a (ch key p k)) - weighted p a)%R (b / sqrt (INR k)).
Proof.
  intros Om key p k a b HF HI L Hk HB Hb. assert (Pk : (0 < INR k)%R) by (apply lt_0_INR; exact Hk). assert (Ps := sqrt_lt_R0 _ Pk).
  split; [apply Rmult_le_pos; [exact Hb|left; apply Rinv_0_lt_compat; exact Ps]|].
  rewrite estimate_variance by assumption. replace (b / sqrt (INR k) * (b / sqrt (INR k)))%R with (b * b / INR k)%R.
  - apply Rmult_le_compat_r; [left; apply Rinv_0_lt_compat; exact Pk|]. assert (S := second_moment_bound Om key p k a b HF L Hk HB). assert (Z := Rle_0_sqr (weighted p a)). unfold Rsqr in Z. lra.
  - transitivity (b * b / (sqrt (INR k) * sqrt (INR k)))%R; [rewrite sqrt_sqrt by lra; reflexivity|field; lra].
Qed.

Lemma rsum_minus : forall {A} (l : list A) f g, rsum l (fun a => f a - g a)%R = (rsum l f - rsum l g)%R.
Proof. intros A l f g. induction l as [|a l IH]; cbn [rsum]; [ring|]. rewrite IH; ring. Qed.

(** ** positions in lists *)
Section Index.
  Context {A : Type} (dec : forall a b : A, {a = b} + {a <> b}).
  Fixpoint index_of (l : list A) (a : A) : nat := match l with [] => 0 | b :: l' => if dec b a then 0 else S (index_of l' a) end.
  Lemma index_nth : forall l k a, NoDup l -> nth_error l k = Some a -> index_of l a = k.
  Proof.
    intros l k a ND. revert k. induction ND as [|b l NI ND IH]; intros [|k] E; cbn [nth_error] in E; try discriminate.
    - injection E as ->. cbn. destruct (dec a a); congruence.
    - cbn. destruct (dec b a) as [->|N]; [apply nth_error_In in E; contradiction|]. f_equal. apply IH; exact E.
  Qed.
End Index.
Lemma mapM_pos : forall {A B} (f : nat * A -> res B) (h : A -> B) l, (forall k a, nth_error l k = Some a -> f (k, a) = Ok (h a)) ->
    mapM f (combine (seq 0 (length l)) l) = Ok (map h l).
Proof.
  intros A B f h l H. enough (G : forall l o, (forall k a, nth_error l k = Some a -> f (o + k, a) = Ok (h a)) -> mapM f (combine (seq o (length l)) l) = Ok (map h l)) by (apply (G l 0); exact H).
  clear l H. induction l as [|a l IH]; intros o H; [reflexivity|]. cbn [length seq combine mapM map].
  assert (E := H 0 a eq_refl). rewrite Nat.add_0_r in E. rewrite E; cbn [bind]. rewrite (IH (S o)); [reflexivity|].
  intros k b Hk. specialize (H (S k) b Hk). rewrite Nat.add_succ_r in H. exact H.
Qed.

(** ** what the rule computes from its evaluations *)
Definition point : Type := (nat * list R)%type.
Definition halfdiff (Y : point -> op -> R) (e : point * point) (K : op) : R := ((Y (fst e) K - Y (snd e) K) / 2)%R.
Lemma sum_vectors_at : forall {A} (F : A -> op -> R) (inds : list A) (Ks : list op), inds <> [] ->
    match map (fun i => map (F i) Ks) inds with [] => Err ValueError | g :: gs' => Ok (fold_left vadd gs' g) end = Ok (map (fun K => rsum inds (fun i => F i K)) Ks).
Proof.
  intros A F inds Ks N. destruct inds as [|a inds]; [contradiction|]. cbn [map]. f_equal. clear N.
  enough (G : forall inds (H : op -> R), fold_left vadd (map (fun i => map (F i) Ks) inds) (map H Ks) = map (fun K => H K + rsum inds (fun i => F i K))%R Ks) by (rewrite G; reflexivity).
  clear a inds. induction inds as [|b inds IH]; intro H; cbn [map fold_left rsum].
  - apply map_ext; intro; ring.
  - unfold vadd at 2. rewrite combine_map2, map_map. cbn [fst snd]. rewrite (IH (fun K => H K + F b K)%R). apply map_ext; intro; ring.
Qed.

Section Structure.
  Variables (n : nat) (vals : values) (gs : list gate) (uuid : nat -> string) (split : nat -> nat -> nat -> nat) (key : nat) (Ks : list op) (P : list gate -> values -> list R).
  Hypothesis NV : numeric_values vals.
  Hypothesis VN : vals <> [].
  Hypothesis FU : Forall (usable n vals) gs.
  Hypothesis AR : all_rotations gs.
  Hypothesis ALL : forall name, In name (map fst vals) -> In name (flat_map names_of_gate gs).
  Let keys := map fst vals.
  Definition valof (p : string) : R := match lookup vals p with Ok (VNum x) => x | _ => 0%R end.
  Definition nv : values := map (fun ip => (uuid (fst ip), VNum (valof (snd ip)))) (temp_inds gs (map fst vals)).
  Definition ng : list gate := map (rename_at (map fst vals) uuid) (indexed gs).
  Definition pair_at (kk : nat) (up down : list R) : point * point := ((split kk 2 0, up), (split kk 2 1, down)).
  Definition by_value (name : string) : point * point :=
    pair_at (split key (length keys) (index_of string_dec keys name)) (P gs (at_value vals name (valof name + PI / 2))) (P gs (at_value vals name (valof name + - (PI / 2)))).
  Definition by_gate (kk : nat) (i : nat) : point * point := pair_at kk (P (shift_at gs i (PI / 2)) vals) (P (shift_at gs i (- (PI / 2))) vals).
  Definition jvp_points (name : string) : list (point * point) :=
    if ListDec.NoDup_dec string_dec (flat_map names_of_gate gs) then [by_value name]
    else map (fun i => by_gate (split key (length (temp_inds gs keys)) (index_of Nat.eq_dec (map fst (temp_inds gs keys)) i)) i) (param_indices gs name).
  Definition bwd_points (name : string) : list (point * point) :=
    if ListDec.NoDup_dec string_dec (flat_map names_of_gate gs) then [by_value name]
    else map (fun i => by_gate (split (split key (length keys) (index_of string_dec keys name)) (length (param_indices gs name)) (index_of Nat.eq_dec (param_indices gs name) i)) i) (param_indices gs name).
  Lemma uses_length : forall name, length (param_indices gs name) = uses gs name.
  Proof. intro name. unfold uses. symmetry. apply (count_indices n vals); exact FU. Qed.
  Lemma uses_once : forall name, NoDup (flat_map names_of_gate gs) -> In name keys -> uses gs name = 1.
  Proof. intros name ND H. unfold uses. apply NoDup_count_occ'; [exact ND|apply ALL; exact H]. Qed.
  Lemma jvp_points_length : forall name, In name keys -> length (jvp_points name) = uses gs name.
  Proof. intros name H. unfold jvp_points. destruct (ListDec.NoDup_dec _ _) as [ND|ND]; [symmetry; apply uses_once; assumption|rewrite map_length; apply uses_length]. Qed.
  Lemma bwd_points_length : forall name, In name keys -> length (bwd_points name) = uses gs name.
  Proof. intros name H. unfold bwd_points. destruct (ListDec.NoDup_dec _ _) as [ND|ND]; [symmetry; apply uses_once; assumption|rewrite map_length; apply uses_length]. Qed.
  Lemma look : forall name, In name keys -> lookup vals name = Ok (VNum (valof name)).
  Proof. intros name H. destruct (numeric_lookup vals name NV H) as (x & E). unfold valof. rewrite E. reflexivity. Qed.

  Variables (f : evaluator) (Y : point -> op -> R).
  Hypothesis F1 : forall name s kk, In name keys -> s = (PI / 2)%R \/ s = (- (PI / 2))%R ->
      f (GMany gs) (at_value vals name (valof name + s)) kk = Ok (map (Y (kk, P gs (at_value vals name (valof name + s)))) Ks).
  Lemma step_value : forall name kk, In name keys -> jvp_step f (GMany gs) vals split name 2 kk = Ok (map (halfdiff Y (pair_at kk (P gs (at_value vals name (valof name + PI / 2))) (P gs (at_value vals name (valof name + - (PI / 2)))))) Ks).
  Proof.
    intros name kk H. unfold jvp_step. rewrite !(bump_ok vals name (valof name)) by (apply look; exact H). cbn [bind]. unfold shift_pi2.
    rewrite !F1 by auto. cbn [bind]. rewrite shift_rules_2, half_diffs_map. reflexivity.
  Qed.
  Lemma keys_match : forall {A} (a b : A), match keys with [] => a | _ :: _ => b end = b.
  Proof. intros A a b. unfold keys. revert VN. clear. intro VN. destruct vals; [contradiction|reflexivity]. Qed.
  Lemma keys_nodup : NoDup keys.
  Proof. destruct NV as [ND _]; exact ND. Qed.
  Lemma simple_values : forall (F : string -> nat -> res (list R)), (forall name kk, F name kk = jvp_step f (GMany gs) vals split name 2 kk) ->
      mapM (fun kn => F (snd kn) (split key (length keys) (fst kn))) (combine (seq 0 (length keys)) keys) = Ok (map (fun name => map (fun K => rsum [by_value name] (fun e => halfdiff Y e K)) Ks) keys).
  Proof.
    intros F HF. apply (mapM_pos _ (fun name => map (fun K => rsum [by_value name] (fun e => halfdiff Y e K)) Ks)). intros k name E. cbn [fst snd]. rewrite HF. assert (H : In name keys) by (eapply nth_error_In; exact E).
    rewrite step_value by exact H. f_equal. apply map_ext. intro K. cbn [rsum]. unfold by_value. rewrite (index_nth string_dec keys k name keys_nodup E). ring.
  Qed.

  Section Jvp.
    Hypothesis UI : forall i j, uuid i = uuid j -> i = j.
    Hypothesis F2 : forall i p s kk, In p keys -> In i (param_indices gs p) -> s = (PI / 2)%R \/ s = (- (PI / 2))%R ->
        f (GMany ng) (at_value nv (uuid i) (valof p + s)) kk = Ok (map (Y (kk, P (shift_at gs i s) vals)) Ks).
    Lemma step_gate : forall i p kk, In p keys -> In i (param_indices gs p) -> jvp_step f (GMany ng) nv split (uuid i) 2 kk = Ok (map (halfdiff Y (by_gate kk i)) Ks).
    Proof.
      intros i p kk Hp Hi. unfold jvp_step. rewrite !(bump_ok nv (uuid i) (valof p)) by (apply (rp_lookup vals gs uuid NV UI i p Hp Hi)). cbn [bind]. unfold shift_pi2.
      rewrite !(F2 i p) by auto. cbn [bind]. rewrite shift_rules_2, half_diffs_map. reflexivity.
    Qed.
    Lemma jvp_structure : jvp_grads f (GMany gs) vals uuid split key = Ok (map (fun name => map (fun K => rsum (jvp_points name) (fun e => halfdiff Y e K)) Ks) keys).
    Proof.
      unfold jvp_grads. fold keys. unfold jvp_points. destruct (ListDec.NoDup_dec _ _) as [ND|ND].
      - rewrite (once_branch n vals gs FU ND : gpsr_branch (GMany gs) keys = CaseSimple).
        assert (EN : exists l, mapM (fun kv : string * pyval => num (snd kv)) vals = Ok l).
        { destruct NV as [_ FV]. clear -FV. induction FV as [|kv l (x & E) _ (r & IH)]; [eexists; reflexivity|]. cbn [mapM]. rewrite E; cbn [num bind]. rewrite IH; cbn [bind]. eexists; reflexivity. }
        destruct EN as (l & ->). cbn [bind].
        rewrite keys_match.
        apply (simple_values (fun name kk => jvp_step f (GMany gs) vals split name default_gap kk)). reflexivity.
      - rewrite (repeated_branch n vals gs FU VN keys_nodup ALL ND : gpsr_branch (GMany gs) keys = CaseRepeated). cbn [gate_list].
        unfold keys. rewrite (rp_renamed n vals gs uuid FU AR); cbn [bind]. rewrite (rp_values vals gs uuid NV); cbn [bind]. rewrite (rp_gaps n vals gs uuid FU AR); cbn [bind]. fold keys.
        set (l := temp_inds gs keys). set (tn := temp_names gs keys uuid).
        set (D := fun i => map (halfdiff Y (by_gate (split key (length l) (index_of Nat.eq_dec (map fst l) i)) i)) Ks).
        assert (EG : mapM (fun ktg => let '(k, (t, _), gap) := ktg in jvp_step f (GMany ng) nv split t gap (split key (length tn) k))
            (combine (combine (seq 0 (length tn)) tn) (map (fun _ => 2%R) tn)) = Ok (map (fun ip => D (fst ip)) l)).
        { assert (Q : combine (combine (seq 0 (length tn)) tn) (map (fun _ => 2%R) tn) = map (fun kip => (fst kip, (uuid (fst (snd kip)), snd (snd kip)), 2%R)) (combine (seq 0 (length l)) l)).
          { unfold tn. rewrite temp_names_inds. fold l. rewrite map_length, map_map. generalize (seq 0 (length l)) as sq. intro sq. generalize l as l0. induction sq as [|a sq IH]; intros [|b l0]; try reflexivity. cbn [combine map fst snd]. rewrite IH. reflexivity. }
          rewrite Q. assert (MM : forall {A B E} (f : A -> B) (h : B -> res E) (l : list A), mapM h (map f l) = mapM (fun a => h (f a)) l).
          { clear. intros A B E f h l. induction l as [|a l IH]; [reflexivity|]. cbn [map mapM]. rewrite IH. reflexivity. }
          rewrite MM. assert (LT : length tn = length l) by (unfold tn; rewrite temp_names_inds; apply map_length).
          apply (mapM_pos _ (fun ip => D (fst ip))). intros k [i p] E. cbn [fst snd]. assert (I := nth_error_In _ _ E). apply temp_inds_in in I as [Hp Hi].
          rewrite (step_gate i p) by assumption. unfold D. rewrite LT.
          rewrite (index_nth Nat.eq_dec (map fst l) k i); [reflexivity|apply temp_inds_nodup, keys_nodup|]. rewrite nth_error_map, E. reflexivity. }
        unfold nv, ng, valof in EG. fold keys in EG. fold l in EG. cbv beta. rewrite EG; cbn [bind]. apply mapM_ok. intros name Hn.
        assert (Q : map snd (filter (fun tg => String.eqb (snd (fst tg)) name) (combine tn (map (fun ip => D (fst ip)) l))) = map D (param_indices gs name)).
        { unfold tn. rewrite temp_names_inds. fold l. rewrite combine_map2.
          assert (FM : forall {A B} (f : A -> B) (b : B -> bool) l, filter b (map f l) = map f (filter (fun a => b (f a)) l)).
          { clear. intros A B f b l. induction l as [|a l IH]; [reflexivity|]. cbn [map filter]. rewrite IH. destruct (b (f a)); reflexivity. }
          rewrite FM. cbn [fst snd]. unfold l. rewrite temp_inds_filter; [|exact keys_nodup|exact Hn]. rewrite !map_map. reflexivity. }
        rewrite Q. unfold D. rewrite (sum_vectors_at (fun i => halfdiff Y (by_gate (split key (length l) (index_of Nat.eq_dec (map fst l) i)) i)) (param_indices gs name) Ks) by (apply (rp_indices n vals gs FU ALL); exact Hn).
        f_equal. apply map_ext. intro K. rewrite rsum_map'. reflexivity.
    Qed.
  End Jvp.

  Section Bwd.
    Hypothesis F3 : forall i p s kk, In p keys -> In i (param_indices gs p) -> s = (PI / 2)%R \/ s = (- (PI / 2))%R ->
        f (GMany (shift_at gs i s)) vals kk = Ok (map (Y (kk, P (shift_at gs i s) vals)) Ks).
    Lemma shift_gate : forall i p kk, In p keys -> In i (param_indices gs p) -> shift_jvp f gs vals split i kk = Ok (map (halfdiff Y (by_gate kk i)) Ks).
    Proof.
      intros i p kk Hp Hi. destruct (param_indices_in gs p i Hi) as (g & En & U). assert (Ig : In g gs) by (eapply nth_error_In; exact En).
      assert (PR : plain_rotation g). { apply AR; [exact Ig|]. rewrite Forall_forall in FU. rewrite (uses_in_names n vals g p (FU g Ig) U). discriminate. }
      unfold shift_jvp. rewrite En, (spectral_gap_plain g PR); cbn [bind]. unfold shift_pi2. rewrite !(alter_param gs i _ g En (plain_param g PR)); cbn [bind].
      rewrite !(F3 i p) by auto. cbn [bind]. rewrite shift_rules_2, half_diffs_map. reflexivity.
    Qed.
    Lemma repeated_values : forall name kk, In name keys -> jvp_component_repeated f gs vals split name kk =
        Ok (map (fun K => rsum (map (fun i => by_gate (split kk (length (param_indices gs name)) (index_of Nat.eq_dec (param_indices gs name) i)) i) (param_indices gs name)) (fun e => halfdiff Y e K)) Ks).
    Proof.
      intros name kk Hn. unfold jvp_component_repeated. set (inds := param_indices gs name).
      rewrite (mapM_pos (fun ki => shift_jvp f gs vals split (snd ki) (split kk (length inds) (fst ki))) (fun i => map (halfdiff Y (by_gate (split kk (length inds) (index_of Nat.eq_dec inds i)) i)) Ks)).
      - cbn [bind]. rewrite (sum_vectors_at (fun i => halfdiff Y (by_gate (split kk (length inds) (index_of Nat.eq_dec inds i)) i)) inds Ks) by (apply (rp_indices n vals gs FU ALL); exact Hn).
        f_equal. apply map_ext. intro K. rewrite rsum_map'. reflexivity.
      - intros k i E. cbn [fst snd]. rewrite (shift_gate i name) by (first [exact Hn|eapply nth_error_In; exact E]).
        rewrite (index_nth Nat.eq_dec inds k i); [reflexivity|apply param_indices_nodup|exact E].
    Qed.
    Lemma bwd_structure : forall f0, f = jitted f0 ->
        gpsr_bwd f0 (GMany gs) vals split key = Ok (map (fun name => fold_right Rplus 0%R (map (fun K => rsum (bwd_points name) (fun e => halfdiff Y e K)) Ks)) keys).
    Proof.
      intros f0 Ef. unfold gpsr_bwd. rewrite <- Ef. fold keys. unfold bwd_points. destruct (ListDec.NoDup_dec _ _) as [ND|ND].
      - rewrite (once_branch n vals gs FU ND : gpsr_branch (GMany gs) keys = CaseSimple). rewrite keys_match.
        rewrite (simple_values (fun name kk => jvp_component f (GMany gs) vals split name kk)) by reflexivity. cbn [bind]. rewrite map_map. reflexivity.
      - rewrite (repeated_branch n vals gs FU VN keys_nodup ALL ND : gpsr_branch (GMany gs) keys = CaseRepeated). rewrite keys_match.
        set (G := fun name => map (fun K => rsum (map (fun i => by_gate (split (split key (length keys) (index_of string_dec keys name)) (length (param_indices gs name)) (index_of Nat.eq_dec (param_indices gs name) i)) i) (param_indices gs name)) (fun e => halfdiff Y e K)) Ks).
        rewrite (mapM_pos (fun kn => jvp_component_repeated f gs vals split (snd kn) (split key (length keys) (fst kn))) G).
        + cbn [bind]. rewrite map_map. reflexivity.
        + intros k name E. cbn [fst snd]. rewrite repeated_values by (eapply nth_error_In; exact E). unfold G. rewrite (index_nth string_dec keys k name keys_nodup E). reflexivity.
    Qed.
  End Bwd.
End Structure.
