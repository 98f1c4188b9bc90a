(** * Grouping arbitrary gates *)
From Coq Require Import String List Arith Bool Reals Lia Lra ZArith Permutation.
From Verif Require Import Cplx Py PyFacts Ndarray OperatorUtils Sparse Matrices Noise Gates Apply
  Spec SpecFacts Deriv GateSpec PropSpec NoiseSpec ExpectSpec SampleSpec ShotsSpec GateFacts CircuitFacts AlgebraFacts GroupFacts ApplyThm NoiseThm GpsrFacts GroupThm GroupSpec.
Import ListNotations.
Local Open Scope nat_scope.

Lemma tuple_le_leb : forall a b, tuple_le a b -> lex_leb a b = true.
Proof.
  intros a b H. induction H as [l|x y a b L|x a b H IH]; cbn [lex_leb]; [reflexivity| |].
  - apply Nat.ltb_lt in L. rewrite L. reflexivity.
  - rewrite Nat.ltb_irrefl. exact IH.
Qed.
Notation free g := (is_controlled (control g) = false).
Definition fits (g h : gate) : Prop := leb_gate g h = true \/ (forall q, In q (target g) -> ~ In q (target h)).
Lemma swaps_insert' : forall l g, free g -> Forall (fun h => free h /\ fits g h) l -> swaps (g :: l) (insert_by leb_gate g l).
Proof.
  intros l g U F. induction F as [|h l [Uh Sh] F IH]; cbn [insert_by]; [apply sw_refl|]. destruct (leb_gate g h) eqn:E; [apply sw_refl|].
  eapply sw_trans; [|apply sw_skip, IH]. apply sw_swap; auto. destruct Sh as [Sh|Sh]; [congruence|exact Sh].
Qed.
Lemma keeps_tail : forall g l, grouping_keeps_order (g :: l) -> grouping_keeps_order l.
Proof. intros g l H a x b h c E F. apply (H (g :: a) x b h c); [rewrite E; reflexivity|exact F]. Qed.
Lemma keeps_suffix : forall a l, grouping_keeps_order (a ++ l) -> grouping_keeps_order l.
Proof. induction a as [|g a IH]; intros l H; [exact H|]. apply IH. eapply keeps_tail; exact H. Qed.
Lemma keeps_prefix : forall a l, grouping_keeps_order (a ++ l) -> grouping_keeps_order a.
Proof.
  intros p l H a g b h c E F. apply (H a g b h (c ++ l)); [|exact F]. rewrite E, <- app_assoc. cbn [app]. rewrite <- app_assoc. reflexivity.
Qed.
Lemma swaps_sort' : forall l, Forall (fun g => free g) l -> grouping_keeps_order l -> swaps l (sort_by leb_gate l).
Proof.
  induction l as [|g l IH]; intros F D; [apply sw_refl|]. inversion F as [|? ? Ug F']; subst. cbn [sort_by].
  eapply sw_trans; [apply sw_skip, IH; [exact F'|eapply keeps_tail; exact D]|]. apply swaps_insert'; [exact Ug|].
  apply Forall_forall; intros h Hh. assert (I : In h l) by (eapply Permutation_in; [apply sort_by_perm|exact Hh]).
  rewrite Forall_forall in F'. split; [apply F', I|]. apply in_split in I as (b & c & E). subst l.
  destruct (D [] g b h c eq_refl) as [L|L]; [|left; apply tuple_le_leb; exact L|right; exact L].
  apply Forall_cons; [exact Ug|]. apply Forall_forall. intros x Hx. apply F'. apply in_app_iff in Hx as [Hx|[<-|[]]]; apply in_app_iff; [left; exact Hx|right; left; reflexivity].
Qed.
Lemma swaps_loop' : forall gs S B, Forall (fun g => free g) B -> grouping_keeps_order (B ++ gs) -> swaps (S ++ B ++ gs) (group_loop S B gs).
Proof.
  induction gs as [|g gs IH]; intros S B F G; cbn [group_loop]; pose proof (swaps_sort' B F (keeps_prefix _ _ G)) as BO.
  - destruct B as [|b B]; [rewrite !app_nil_r; apply sw_refl|]. rewrite <- (app_nil_r (sort_batch (b :: B))). apply swaps_app, BO.
  - destruct (is_controlled (control g)) eqn:Cg; cbn [negb].
    + assert (G' : grouping_keeps_order ([] ++ gs)) by (apply (keeps_tail g), (keeps_suffix B), G).
      destruct B as [|b B]; (eapply sw_trans; [|apply IH; [constructor|exact G']]); rewrite <- !app_assoc; [apply sw_refl|].
      change ([] ++ gs) with gs. change ([g] ++ gs) with (g :: gs). apply swaps_app, BO.
    + replace (S ++ B ++ g :: gs) with (S ++ (B ++ [g]) ++ gs) by (rewrite <- app_assoc; reflexivity). apply IH.
      * apply Forall_app; split; [exact F|constructor; [exact Cg|constructor]].
      * rewrite <- app_assoc. exact G.
Qed.
Lemma gseq_swaps : forall w ot vals n l l', swaps l l' -> forall K, gseq w ot vals n l K -> gseq w ot vals n l' K.
Proof.
  intros w ot vals n l l' H. induction H as [l|g l l' H IH|g h l U1 U2 D|x y z H1 IH1 H2 IH2]; intros K G; [exact G| | |apply IH2, IH1, G].
  - eapply gseq_cons_tl; [exact IH|exact G].
  - apply gseq_swap; assumption.
Qed.
Lemma c12_group : forall w n vals ot mg gs s,
    set_order (set_iter w) ->
    Forall (usable n vals) gs -> Forall dense_gate gs -> Forall noise_ok gs -> Forall (has_operation ot) gs ->
    grouping_keeps_order gs -> state_of n s ->
    apply_gates w s (GMany gs) vals ot true mg = apply_gates w s (GMany gs) vals ot false mg.
Proof.
  intros w n vals ot mg gs s SO FU FD FN FO G HS. pose proof (group_by_index_perm gs) as PM. pose proof (swaps_loop' gs [] [] (Forall_nil _) G) as SW.
  cbn [app] in SW. change (group_loop [] [] gs) with (group_by_index gs) in SW. rewrite apply_gates_group. destruct (no_noise (map noise gs)) eqn:NN.
  - apply no_noise_spec in NN. destruct gs as [|g gs]; [reflexivity|]. assert (NE : g :: gs <> []) by discriminate. pose proof (group_nonempty _ NE) as NE'.
    assert (NN' := Forall_perm _ _ _ (Permutation_sym PM) NN). destruct (usable_gseq w ot n vals _ FU FD FO) as (K & HK). assert (HK' := gseq_swaps _ _ _ _ _ _ SW _ HK).
    destruct s as [a|b|a]; simpl in HS; [|destruct HS|].
    + destruct (apply_gates_dense_any w n vals ot false mg _ K a NE NN ltac:(discriminate) HK HS) as (r1 & E1 & S1 & V1).
      destruct (apply_gates_dense_any w n vals ot false mg _ K a NE' NN' ltac:(discriminate) HK' HS) as (r2 & E2 & S2 & V2).
      rewrite E1, E2; do 2 f_equal; apply (state_ext n); auto; rewrite V1, V2; reflexivity.
    + destruct (apply_gates_dm_any w n vals ot false mg _ K a SO NE NN ltac:(discriminate) HK HS) as (r1 & E1 & S1 & V1).
      destruct (apply_gates_dm_any w n vals ot false mg _ K a SO NE' NN' ltac:(discriminate) HK' HS) as (r2 & E2 & S2 & V2).
      rewrite E1, E2; do 2 f_equal; apply (density_ext n); auto; rewrite V1, V2; reflexivity.
  - assert (NE : gs <> []) by (intro Q; subst; discriminate).
    destruct (nseq_exists w ot n vals gs FU FD FO (density_of s)) as (r' & H). pose proof (nseq_swaps w ot vals n _ _ SW FN _ _ H) as H'.
    assert (NN' : no_noise (map noise (group_by_index gs)) = false).
    { destruct (no_noise (map noise (group_by_index gs))) eqn:Q; [|reflexivity]. apply no_noise_spec in Q. apply (Forall_perm _ _ _ PM) in Q. apply no_noise_spec in Q. congruence. }
    destruct (nseq_apply w ot vals n mg gs s r' SO NE FN NN HS H) as (b & E & D & K).
    destruct (nseq_apply w ot vals n mg (group_by_index gs) s r' SO (group_nonempty gs NE) (Forall_perm _ _ _ (Permutation_sym PM) FN) NN' HS H') as (b' & E' & D' & K').
    rewrite E, E'. do 2 f_equal. apply (density_ext n); auto. rewrite K, K'. reflexivity.
Qed.
