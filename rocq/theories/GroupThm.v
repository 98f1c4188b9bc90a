(** * Grouping noisy gates *)
From Coq Require Import String List Arith Bool Reals Lia Lra ZArith Permutation.
From Verif Require Import Cplx Py PyFacts Ndarray OperatorUtils Sparse Matrices Noise Gates Apply
  Spec SpecFacts Deriv GateSpec PropSpec NoiseSpec ExpectSpec SampleSpec ShotsSpec GateFacts CircuitFacts AlgebraFacts GroupFacts ApplyThm NoiseThm GpsrFacts.
Import ListNotations.
Local Open Scope nat_scope.

(** ** lists that differ by exchanging neighbours on different qubits *)
Inductive swaps : list gate -> list gate -> Prop :=
| sw_refl : forall l, swaps l l
| sw_skip : forall g l l', swaps l l' -> swaps (g :: l) (g :: l')
| sw_swap : forall g h l, is_controlled (control g) = false -> is_controlled (control h) = false ->
    (forall q, In q (target g) -> ~ In q (target h)) -> swaps (g :: h :: l) (h :: g :: l)
| sw_trans : forall a b c, swaps a b -> swaps b c -> swaps a c.
Lemma swaps_app : forall a b b' c, swaps b b' -> swaps (a ++ b ++ c) (a ++ b' ++ c).
Proof.
  intros a b b' c H. induction a as [|g a IH]; [|apply sw_skip, IH]. cbn [app]. induction H as [l|g l l' H IH|g h l U1 U2 D|x y z H1 IH1 H2 IH2].
  - apply sw_refl.
  - cbn [app]. apply sw_skip, IH.
  - cbn [app]. apply sw_swap; assumption.
  - eapply sw_trans; eassumption.
Qed.
Lemma swaps_insert : forall l g, is_controlled (control g) = false -> Forall (fun h => is_controlled (control h) = false /\ same_or_disjoint g h) l ->
    swaps (g :: l) (insert_by leb_gate g l).
Proof.
  intros l g U F. induction F as [|h l [Uh Sh] F IH]; cbn [insert_by]; [apply sw_refl|]. destruct (leb_gate g h) eqn:E; [apply sw_refl|].
  eapply sw_trans; [|apply sw_skip, IH]. apply sw_swap; auto. destruct Sh as [Sh|Sh]; [|exact Sh]. unfold leb_gate in E. rewrite Sh, lex_leb_refl in E. discriminate.
Qed.
Lemma swaps_sort : forall l, batch_ok l -> swaps l (sort_by leb_gate l).
Proof.
  induction l as [|g l IH]; intros [F D]; [apply sw_refl|]. inversion F as [|? ? Ug F']; subst. cbn [sort_by].
  eapply sw_trans; [apply sw_skip, IH; split; [exact F'|intros a b Ha Hb; apply D; right; assumption]|]. apply swaps_insert; [exact Ug|].
  apply Forall_forall; intros h Hh. assert (I : In h l) by (eapply Permutation_in; [apply sort_by_perm|exact Hh]).
  split; [rewrite Forall_forall in F'; apply F', I|]. apply D; [left; reflexivity|right; exact I].
Qed.
Lemma swaps_loop : forall gs S B, Forall (fun g => is_controlled (control g) = false) B -> groupable (B ++ gs) -> swaps (S ++ B ++ gs) (group_loop S B gs).
Proof.
  induction gs as [|g gs IH]; intros S B F G; cbn [group_loop];
    assert (BO : batch_ok B) by (split; [exact F|]; rewrite Forall_forall in F; intros a b Ha Hb; apply G; try (apply in_or_app; left; assumption); auto).
  - destruct B as [|b B]; [rewrite !app_nil_r; apply sw_refl|]. rewrite <- (app_nil_r (sort_batch (b :: B))). apply swaps_app, swaps_sort, BO.
  - destruct (is_controlled (control g)) eqn:Cg; cbn [negb].
    + assert (G' : groupable ([] ++ gs)) by (intros a b Ha Hb; apply G; apply in_or_app; right; right; assumption).
      destruct B as [|b B]; (eapply sw_trans; [|apply IH; [constructor|exact G']]); rewrite <- !app_assoc; [apply sw_refl|].
      change ([] ++ gs) with gs. change ([g] ++ gs) with (g :: gs). apply swaps_app, swaps_sort, BO.
    + replace (S ++ B ++ g :: gs) with (S ++ (B ++ [g]) ++ gs) by (rewrite <- app_assoc; reflexivity). apply IH.
      * apply Forall_app; split; [exact F|constructor; [exact Cg|constructor]].
      * rewrite <- app_assoc. exact G.
Qed.
Lemma swaps_group : forall gs, groupable gs -> swaps gs (group_by_index gs).
Proof. intros gs G. apply (swaps_loop gs [] []); [constructor|exact G]. Qed.

(** ** channels on different qubits commute *)
Lemma sandwich_comm : forall n A B r, keq n (kmul n A B) (kmul n B A) -> keq n (sandwiched n A (sandwiched n B r)) (sandwiched n B (sandwiched n A r)).
Proof.
  intros n A B r E. eapply keq_trans; [apply keq_sym; apply (conjugate_mul n A B r)|]. eapply keq_trans; [|apply (conjugate_mul n B A r)].
  apply conjugate_ext; [exact E|apply keq_refl].
Qed.
(** [F] does not touch the qubit [q] *)
Definition spares (n q : nat) (F : op -> op) : Prop :=
  forall K r, keq n (F (sandwiched n (ctrl_kernel K [] [q]) r)) (sandwiched n (ctrl_kernel K [] [q]) (F r)).
Lemma spares_kraus : forall n q F ks r, linear n F -> spares n q F -> keq n (F (kraus_sum n q ks r)) (kraus_sum n q ks (F r)).
Proof.
  intros n q F ks r (E & A & S & _) HF. unfold kraus_sum. induction ks as [|K ks IH]; cbn [map ksum].
  - eapply keq_trans; [apply (E (fun _ _ => C0) (kscale C0 r)); intros x y _ _; unfold kscale; ring|]. eapply keq_trans; [apply S|]. intros x y _ _. unfold kscale. ring.
  - eapply keq_trans; [apply A|]. apply kadd_ext; [apply HF|exact IH].
Qed.
Lemma spares_channels : forall n q F ns r, linear n F -> spares n q F -> keq n (F (channels n [q] ns r)) (channels n [q] ns (F r)).
Proof.
  intros n q F [l|] r L HF; [|apply keq_refl]. cbn [channels hd]. revert r. induction l as [|i l IH]; intro r; [apply keq_refl|]. cbn [fold_left].
  eapply keq_trans; [apply IH|]. apply (linear_channels n [q] (Some l)). apply spares_kraus; assumption.
Qed.
Lemma spares_sandwich : forall n q M ts, valid_qubits n (ts ++ [q]) -> spares n q (sandwiched n (ctrl_kernel M [] ts)).
Proof. intros n q M ts V K r. apply sandwich_comm. apply ctrl_kernel_comm. exact V. Qed.
Lemma kraus_spares : forall n q q' ks, valid_qubits n [q; q'] -> spares n q' (kraus_sum n q ks).
Proof.
  intros n q q' ks V K r. apply keq_sym. apply (spares_kraus n q (sandwiched n (ctrl_kernel K [] [q']))); [apply linear_sandwich|].
  apply spares_sandwich. destruct V as [N F]. split; [apply (Permutation_NoDup (Permutation.perm_swap _ _ _) N)|apply (Permutation_Forall (Permutation.perm_swap _ _ _) F)].
Qed.
Lemma channels_spares : forall n q q' ns, valid_qubits n [q; q'] -> spares n q' (channels n [q] ns).
Proof.
  intros n q q' [l|] V; [|intros K r; apply keq_refl]. cbn [channels hd]. induction l as [|i l IH]; [intros K r; apply keq_refl|]. intros K r. cbn [fold_left].
  eapply keq_trans; [|apply IH]. apply (linear_channels n [q] (Some l)). apply kraus_spares, V.
Qed.

(** ** running a list of noisy operators *)
Inductive nseq (w : world) (ot : op_type) (vals : values) (n : nat) : list gate -> op -> op -> Prop :=
| ns_nil : forall r r', keq n r' r -> nseq w ot vals n [] r r'
| ns_cons : forall g l P r r1 r', opk w ot vals n g P -> keq n r1 (channels n (target g) (noise g) (sandwiched n P r)) -> nseq w ot vals n l r1 r' ->
    nseq w ot vals n (g :: l) r r'.
Lemma nseq_ext : forall w ot vals n l r r', nseq w ot vals n l r r' -> forall s s', keq n s r -> keq n s' r' -> nseq w ot vals n l s s'.
Proof.
  intros w ot vals n l r r' H. induction H as [r r' E|g l P r r1 r' HP E H IH]; intros s s' Es Es'.
  - constructor. eapply keq_trans; [exact Es'|]. eapply keq_trans; [exact E|apply keq_sym, Es].
  - eapply ns_cons; [exact HP| |apply IH; [apply keq_refl|exact Es']]. eapply keq_trans; [exact E|]. apply (linear_channels n (target g) (noise g)), sandwiched_ext; [apply keq_refl|apply keq_sym, Es].
Qed.
Lemma nseq_exists : forall w ot n vals gs, Forall (usable n vals) gs -> Forall dense_gate gs -> Forall (has_operation ot) gs -> forall r, exists r', nseq w ot vals n gs r r'.
Proof.
  intros w ot n vals gs FU FD FO. destruct (usable_gseq w ot n vals gs FU FD FO) as (K & H). clear FU FD FO. induction H as [K E|g l P L K HP HL IH E]; intro r; [exists r; constructor; apply keq_refl|].
  destruct (IH (channels n (target g) (noise g) (sandwiched n P r))) as (r' & N). exists r'. eapply ns_cons; [exact HP|apply keq_refl|exact N].
Qed.
Lemma opk_plain : forall w ot vals n g P, opk w ot vals n g P -> is_controlled (control g) = false ->
    exists M, keq n P (ctrl_kernel M [] (target g)) /\ valid_qubits n (target g).
Proof. intros w ot vals n g P (u & cs & _ & _ & HC & V & K) U. pose proof (uncontrolled_none _ _ HC U); subst cs. exists (entry u). split; [exact K|exact V]. Qed.
Lemma noise_target : forall g, noise_ok g -> noise g = None \/ exists q, target g = [q].
Proof. intros g H. unfold noise_ok in H. destruct (noise g); [right|left; reflexivity]. destruct H as [L _]. destruct (target g) as [|q [|? ?]]; try discriminate. eauto. Qed.
(** a channel on the target of [h], past the operator of [g] *)
Lemma channel_past : forall n g h M r, noise_ok h -> valid_qubits n (target g ++ target h) ->
    keq n (sandwiched n (ctrl_kernel M [] (target g)) (channels n (target h) (noise h) r)) (channels n (target h) (noise h) (sandwiched n (ctrl_kernel M [] (target g)) r)).
Proof.
  intros n g h M r HN V. destruct (noise_target h HN) as [->|(q & Eq)]; [apply keq_refl|]. rewrite Eq in *. apply (spares_channels n q (sandwiched n (ctrl_kernel M [] (target g)))); [apply linear_sandwich|].
  apply spares_sandwich. exact V.
Qed.
Lemma channels_past : forall n g h r, noise_ok g -> noise_ok h -> valid_qubits n (target g ++ target h) ->
    keq n (channels n (target g) (noise g) (channels n (target h) (noise h) r)) (channels n (target h) (noise h) (channels n (target g) (noise g) r)).
Proof.
  intros n g h r Hg Hh V. destruct (noise_target h Hh) as [->|(q & Eq)]; [apply keq_refl|]. destruct (noise_target g Hg) as [->|(p & Ep)]; [apply keq_refl|]. rewrite Ep, Eq in *.
  apply (spares_channels n q (channels n [p] (noise g))); [apply linear_channels|]. apply channels_spares. exact V.
Qed.
Lemma nseq_swap : forall w ot vals n g h l r r', nseq w ot vals n (g :: h :: l) r r' -> noise_ok g -> noise_ok h ->
    is_controlled (control g) = false -> is_controlled (control h) = false -> (forall q, In q (target g) -> ~ In q (target h)) -> nseq w ot vals n (h :: g :: l) r r'.
Proof.
  intros w ot vals n g h l r r' H Ng Nh Ug Uh D. inversion H as [|? ? P ? r1 ? HP E1 H1]; subst. inversion H1 as [|? ? Q ? r2 ? HQ E2 H2]; subst.
  destruct (opk_plain _ _ _ _ _ _ HP Ug) as (A & KA & VA). destruct (opk_plain _ _ _ _ _ _ HQ Uh) as (B & KB & VB).
  assert (V : valid_qubits n (target g ++ target h)) by (destruct VA as [N1 F1], VB as [N2 F2]; split; [apply NoDup_app_intro; assumption|apply Forall_app; split; assumption]).
  assert (V' : valid_qubits n (target h ++ target g)) by (destruct V as [N F]; split; [eapply Permutation_NoDup; [apply Permutation_app_comm|exact N]|eapply Permutation_Forall; [apply Permutation_app_comm|exact F]]).
  eapply ns_cons; [exact HQ|apply keq_refl|]. eapply ns_cons; [exact HP| |exact H2]. rewrite E2.
  pose proof (linear_channels n (target g) (noise g)) as (XG & _). pose proof (linear_channels n (target h) (noise h)) as (XH & _).
  set (a := ctrl_kernel A [] (target g)) in *. set (b := ctrl_kernel B [] (target h)) in *.
  eapply keq_trans; [apply XH, sandwiched_ext; [exact KB|exact E1]|]. eapply keq_trans; [apply XH; apply (channel_past n h g B _ Ng V')|].
  eapply keq_trans; [apply (channels_past n h g _ Nh Ng V')|]. apply XG. apply keq_sym.
  eapply keq_trans; [apply sandwiched_ext; [exact KA|apply XH, sandwiched_ext; [exact KB|apply keq_refl]]|]. eapply keq_trans; [apply (channel_past n g h A _ Nh V)|]. apply XH.
  eapply keq_trans; [apply sandwich_comm; apply (opk_comm w ot vals n g h); [| |exact Ug|exact Uh|exact D]|].
  - destruct HP as (u & cs & e1 & e2 & e3 & e4 & e5). exists u, cs. do 4 (split; [assumption|]). eapply keq_trans; [apply keq_sym, KA|exact e5].
  - destruct HQ as (u & cs & e1 & e2 & e3 & e4 & e5). exists u, cs. do 4 (split; [assumption|]). eapply keq_trans; [apply keq_sym, KB|exact e5].
  - apply sandwiched_ext; [apply keq_refl|]. apply sandwiched_ext; [apply keq_sym, KA|apply keq_refl].
Qed.
Lemma nseq_swaps : forall w ot vals n l l', swaps l l' -> Forall noise_ok l -> forall r r', nseq w ot vals n l r r' -> nseq w ot vals n l' r r'.
Proof.
  intros w ot vals n l l' H. induction H as [l|g l l' H IH|g h l U1 U2 D|x y z H1 IH1 H2 IH2]; intros F r r' N.
  - exact N.
  - inversion F; subst. inversion N; subst. eapply ns_cons; eauto.
  - inversion F as [|? ? F1 F2]; inversion F2; subst. apply nseq_swap; assumption.
  - apply IH2; [|apply IH1; assumption]. assert (P : Permutation x y); [|exact (Forall_perm _ _ _ P F)]. clear - H1.
    induction H1; [apply Permutation_refl|apply perm_skip; assumption|apply Permutation.perm_swap|eapply perm_trans; eassumption].
Qed.
Lemma nseq_run : forall w ot vals n l r r', set_order (set_iter w) -> Forall noise_ok l -> nseq w ot vals n l r r' ->
    exists ops, mapM (fun g => operator_of w ot g vals) l = Ok ops /\
      forall a, is_density n a -> keq n (rho_entry a) r ->
        exists b, foldM (noisy_step w) (combine (map (fun og => (fst og, target (snd og), control (snd og))) (combine ops l)) (map noise l)) (SDM a)
            = Ok (SDM b) /\ is_density n b /\ keq n (rho_entry b) r'.
Proof.
  intros w ot vals n l r r' SO F H. induction H as [r r' E|g l P r r1 r' HP E H IH].
  - exists []. split; [reflexivity|]. intros a Da Ka. exists a. split; [reflexivity|split; [exact Da|]]. eapply keq_trans; [exact Ka|apply keq_sym, E].
  - inversion F as [|? ? Fg Fl]; subst. destruct (IH Fl) as (ops & EO & R). destruct (opk_operator _ _ _ _ _ _ HP) as (o & Eo & Po).
    exists (o :: ops). split; [cbn [mapM]; rewrite Eo; cbn [bind]; rewrite EO; reflexivity|]. intros a Da Ka.
    destruct (step_dm w n o _ _ _ a SO Po Da) as (b & Eb & Db & Kb). assert (K1 : keq n (rho_entry b) (sandwiched n P r)) by (rewrite Kb; apply sandwiched_ext; [apply keq_refl|exact Ka]).
    cbn [combine map foldM fst snd]. change (noisy_step w (SDM a) (o, target g, control g, noise g)) with (apply_operator_with_noise w (SDM a) o (target g) (control g) (noise g)).
    unfold apply_operator_with_noise. rewrite Eb. cbn [bind]. unfold noise_ok in Fg. destruct (noise g) as [ns|] eqn:EN.
    + destruct Fg as [L FN]. rewrite (density_num n b Db). cbn [bind]. destruct (target g) as [|q [|? ?]] eqn:ET; try discriminate.
      assert (Hq : q < n) by (destruct HP as (u & cs & _ & _ & _ & V & _); rewrite ET in V; apply (valid_lt n [q]); [apply (valid_app_r n cs), V|left; reflexivity]).
      destruct (noise_loop n q ns _ _ (through_fold n q ns FN (sandwiched n P r)) Hq b Db K1) as (d & Ed & Dd & Kd). rewrite Ed. cbn [bind]. apply R; [exact Dd|].
      eapply keq_trans; [exact Kd|apply keq_sym, E].
    + cbn [bind]. apply R; [exact Db|]. eapply keq_trans; [exact K1|apply keq_sym, E].
Qed.
Lemma nseq_apply : forall w ot vals n mg gs s r', set_order (set_iter w) -> gs <> [] -> Forall noise_ok gs -> no_noise (map noise gs) = false -> state_of n s ->
    nseq w ot vals n gs (density_of s) r' ->
    exists b, apply_gates w s (GMany gs) vals ot false mg = Ok (SDM b) /\ is_density n b /\ keq n (rho_entry b) r'.
Proof.
  intros w ot vals n mg gs s r' SO NE FN NN HS H. destruct (nseq_run w ot vals n gs _ _ SO FN H) as (ops & EO & R).
  unfold apply_gates, prepare_sequence_reduce. cbv zeta. rewrite EO. cbn [bind]. destruct gs as [|g gs]; [contradiction|]. rewrite NN. cbn [andb bind fst snd].
  destruct s as [a|b|a]; [|destruct HS|].
  - rewrite NN. cbn [negb]. destruct (density_mat_spec n a HS) as (rho & Er & Dr & Kr). rewrite Er. cbn [bind]. apply (R rho Dr). exact Kr.
  - apply (R a HS). apply keq_refl.
Qed.
Lemma c11_group : forall w n vals ot mg gs s,
    set_order (set_iter w) ->
    Forall (usable n vals) gs -> Forall dense_gate gs -> Forall noise_ok gs -> Forall (has_operation ot) gs ->
    groupable gs -> state_of n s ->
    apply_gates w s (GMany gs) vals ot true mg = apply_gates w s (GMany gs) vals ot false mg.
Proof.
  intros w n vals ot mg gs s SO FU FD FN FO G HS. destruct (no_noise (map noise gs)) eqn:NN.
  - apply no_noise_spec in NN. apply (c11_group_noiseless w n); assumption.
  - assert (NE : gs <> []) by (intro Q; subst; discriminate). pose proof (group_by_index_perm gs) as PM.
    destruct (nseq_exists w ot n vals gs FU FD FO (density_of s)) as (r' & H). pose proof (nseq_swaps w ot vals n _ _ (swaps_group gs G) FN _ _ H) as H'.
    assert (NN' : no_noise (map noise (group_by_index gs)) = false).
    { destruct (no_noise (map noise (group_by_index gs))) eqn:Q; [|reflexivity]. apply no_noise_spec in Q. apply (Forall_perm _ _ _ PM) in Q. apply no_noise_spec in Q. congruence. }
    destruct (nseq_apply w ot vals n mg gs s r' SO NE FN NN HS H) as (b & E & D & K).
    destruct (nseq_apply w ot vals n mg (group_by_index gs) s r' SO (group_nonempty gs NE) (Forall_perm _ _ _ (Permutation_sym PM) FN) NN' HS H') as (b' & E' & D' & K').
    rewrite apply_gates_group, E, E'. do 2 f_equal. apply (density_ext n); auto. rewrite K, K'. reflexivity.
Qed.
