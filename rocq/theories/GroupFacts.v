(** * Grouping gates (apply.py:279-295) *)
From Coq Require Import List String Arith Bool Reals Lia Lra Permutation.
From Verif Require Import Cplx Py PyFacts Ndarray NdFacts OperatorUtils ApplyOperator
  Spec SpecFacts ApplyFacts DmFacts Sparse Matrices Noise Gates Apply Composite GateSpec PropSpec GateFacts CircuitFacts AlgebraFacts.
Import ListNotations.
Local Open Scope nat_scope.

Lemma insert_by_perm : forall {A} (leb : A -> A -> bool) x l, Permutation (insert_by leb x l) (x :: l).
Proof.
  induction l as [|y l IH]; simpl; [apply Permutation_refl|].
  destruct (leb x y); [apply Permutation_refl|].
  eapply Permutation_trans; [apply perm_skip, IH|apply Permutation.perm_swap].
Qed.
Lemma sort_by_perm : forall {A} (leb : A -> A -> bool) l, Permutation (sort_by leb l) l.
Proof.
  induction l as [|x l IH]; simpl; [apply Permutation_refl|].
  eapply Permutation_trans; [apply insert_by_perm|apply perm_skip, IH].
Qed.

Lemma group_loop_perm : forall gs S B, Permutation (group_loop S B gs) (S ++ B ++ gs).
Proof.
  induction gs as [|g gs IH]; intros S B; simpl.
  - destruct B as [|b B]; [rewrite !app_nil_r; apply Permutation_refl|].
    rewrite app_nil_r; apply Permutation_app_head, sort_by_perm.
  - destruct (is_controlled (control g)); simpl.
    + destruct B as [|b B].
      * eapply Permutation_trans; [apply IH|]; rewrite <- app_assoc; apply Permutation_refl.
      * eapply Permutation_trans; [apply IH|].
        rewrite <- !app_assoc; apply Permutation_app_head.
        apply Permutation_app; [apply sort_by_perm|apply Permutation_refl].
    + eapply Permutation_trans; [apply IH|]; rewrite <- app_assoc; apply Permutation_refl.
Qed.
Lemma group_by_index_perm : forall gs, Permutation (group_by_index gs) gs.
Proof. intro gs; apply group_loop_perm. Qed.


Lemma lex_leb_refl : forall l, lex_leb l l = true.
Proof. induction l as [|x l IH]; simpl; [reflexivity|]. rewrite Nat.ltb_irrefl; exact IH. Qed.

Lemma uncontrolled_none : forall c cs, control_qubits c cs -> is_controlled c = false -> cs = [].
Proof. intros c cs [| |[|x cs']] H; try reflexivity; discriminate. Qed.

Lemma opk_comm : forall w ot vals n g h A B, opk w ot vals n g A -> opk w ot vals n h B ->
    is_controlled (control g) = false -> is_controlled (control h) = false ->
    (forall q, In q (target g) -> ~ In q (target h)) ->
    keq n (kmul n A B) (kmul n B A).
Proof.
  intros w ot vals n g h A B (u & cs & _ & _ & C1 & V1 & K1) (v & ds & _ & _ & C2 & V2 & K2) U1 U2 D.
  pose proof (uncontrolled_none _ _ C1 U1); pose proof (uncontrolled_none _ _ C2 U2); subst cs ds.
  simpl in *.
  eapply keq_trans; [apply kmul_ext; [exact K1|exact K2]|].
  eapply keq_trans; [apply ctrl_kernel_comm|apply kmul_ext; apply keq_sym; assumption].
  simpl; destruct V1 as [N1 F1], V2 as [N2 F2]; split.
  - apply NoDup_app_intro; assumption.
  - apply Forall_app; split; assumption.
Qed.

Lemma gseq_inv : forall w ot vals n g l K, gseq w ot vals n (g :: l) K ->
    exists P L, opk w ot vals n g P /\ gseq w ot vals n l L /\ keq n K (kmul n L P).
Proof. intros w ot vals n g l K H; inversion H as [|g' l' P L K' HP HL HK]; subst; eauto. Qed.

Lemma gseq_swap : forall w ot vals n g h l K, gseq w ot vals n (g :: h :: l) K ->
    is_controlled (control g) = false -> is_controlled (control h) = false ->
    (forall q, In q (target g) -> ~ In q (target h)) ->
    gseq w ot vals n (h :: g :: l) K.
Proof.
  intros w ot vals n g h l K H U1 U2 D.
  destruct (gseq_inv _ _ _ _ _ _ _ H) as (P & L & HP & HL & EK).
  destruct (gseq_inv _ _ _ _ _ _ _ HL) as (Q & M & HQ & HM & EL).
  econstructor; [exact HQ|econstructor; [exact HP|exact HM|apply keq_refl]|].
  eapply keq_trans; [exact EK|].
  eapply keq_trans; [apply kmul_ext; [exact EL|apply keq_refl]|].
  eapply keq_trans; [apply kmul_assoc|].
  eapply keq_trans; [apply kmul_ext; [apply keq_refl|]|apply keq_sym, kmul_assoc].
  apply keq_sym; eapply opk_comm; eassumption.
Qed.

Lemma gseq_cons_tl : forall w ot vals n g l l' K,
    (forall L, gseq w ot vals n l L -> gseq w ot vals n l' L) ->
    gseq w ot vals n (g :: l) K -> gseq w ot vals n (g :: l') K.
Proof.
  intros w ot vals n g l l' K H HG; destruct (gseq_inv _ _ _ _ _ _ _ HG) as (P & L & HP & HL & EK).
  econstructor; eauto.
Qed.

Definition leb_gate (g h : gate) : bool := lex_leb (target g) (target h).

Lemma gseq_insert : forall w ot vals n l g K,
    gseq w ot vals n (g :: l) K -> is_controlled (control g) = false ->
    Forall (fun h => is_controlled (control h) = false /\ same_or_disjoint g h) l ->
    gseq w ot vals n (insert_by leb_gate g l) K.
Proof.
  intros w ot vals n l; induction l as [|h l IH]; intros g K H U F; simpl; [exact H|].
  inversion F as [|h' l' [Uh Sh] F']; subst.
  destruct (leb_gate g h) eqn:E; [exact H|].
  eapply gseq_cons_tl; [intros L HL; apply IH; [exact HL|exact U|exact F']|].
  apply gseq_swap; auto.
  destruct Sh as [Sh|Sh]; [|exact Sh].
  unfold leb_gate in E; rewrite Sh, lex_leb_refl in E; discriminate.
Qed.

Definition batch_ok (l : list gate) : Prop :=
  Forall (fun g => is_controlled (control g) = false) l /\
  (forall g h, In g l -> In h l -> same_or_disjoint g h).

Lemma gseq_sort : forall w ot vals n l K, batch_ok l -> gseq w ot vals n l K ->
    gseq w ot vals n (sort_by leb_gate l) K.
Proof.
  intros w ot vals n l; induction l as [|g l IH]; intros K [F D] H; simpl; [exact H|].
  inversion F as [|g' l' Ug F']; subst.
  apply gseq_insert; [|exact Ug|].
  - eapply gseq_cons_tl; [|exact H]. intros L HL; apply IH; [|exact HL].
    split; [exact F'|]. intros a b Ha Hb; apply D; right; assumption.
  - apply Forall_forall; intros h Hh.
    assert (In h l) by (eapply Permutation_in; [apply sort_by_perm|exact Hh]).
    split; [rewrite Forall_forall in F'; apply F'; assumption|].
    apply D; [left; reflexivity|right; assumption].
Qed.

Lemma gseq_app_inv : forall w ot vals n l1 l2 K, gseq w ot vals n (l1 ++ l2) K ->
    exists A B, gseq w ot vals n l1 A /\ gseq w ot vals n l2 B /\ keq n K (kmul n B A).
Proof.
  intros w ot vals n l1; induction l1 as [|g l1 IH]; intros l2 K H; simpl in H.
  - exists kid, K; split; [constructor; apply keq_refl|]; split; [exact H|apply keq_sym, kmul_id_r].
  - destruct (gseq_inv _ _ _ _ _ _ _ H) as (P & L & HP & HL & EK).
    destruct (IH l2 L HL) as (A & B & HA & HB & E).
    exists (kmul n A P), B; split; [econstructor; [exact HP|exact HA|apply keq_refl]|]; split; [exact HB|].
    eapply keq_trans; [exact EK|]. eapply keq_trans; [apply kmul_ext; [exact E|apply keq_refl]|apply kmul_assoc].
Qed.
Lemma gseq_app_congr : forall w ot vals n a b c a' K,
    (forall L, gseq w ot vals n b L -> gseq w ot vals n a' L) ->
    gseq w ot vals n (a ++ b ++ c) K -> gseq w ot vals n (a ++ a' ++ c) K.
Proof.
  intros w ot vals n a b c a' K H HG.
  destruct (gseq_app_inv _ _ _ _ _ _ _ HG) as (A & B & HA & HB & E).
  destruct (gseq_app_inv _ _ _ _ _ _ _ HB) as (B1 & B2 & HB1 & HB2 & E').
  eapply gseq_ext; [apply gseq_app; [exact HA|apply gseq_app; [apply H; exact HB1|exact HB2]]|].
  eapply keq_trans; [exact E|apply kmul_ext; [exact E'|apply keq_refl]].
Qed.


Lemma gseq_group_loop : forall w ot vals n gs S B K,
    Forall (fun g => is_controlled (control g) = false) B -> groupable (B ++ gs) ->
    gseq w ot vals n (S ++ B ++ gs) K -> gseq w ot vals n (group_loop S B gs) K.
Proof.
  intros w ot vals n gs; induction gs as [|g gs IH]; intros S B K F G H; cbn [group_loop].
  - assert (BO : batch_ok B).
    { split; [exact F|]. rewrite Forall_forall in F. intros a b Ha Hb; apply G; try (apply in_or_app; left; assumption); auto. }
    destruct B as [|b B]; [rewrite !app_nil_r in H; exact H|].
    rewrite <- (app_nil_r (sort_batch (b :: B))).
    eapply gseq_app_congr; [|exact H]. intros L HL; apply gseq_sort; assumption.
  - destruct (is_controlled (control g)) eqn:Cg; cbn [negb].
    + assert (BO : batch_ok B).
      { split; [exact F|]. rewrite Forall_forall in F. intros a b Ha Hb; apply G; try (apply in_or_app; left; assumption); auto. }
      assert (G' : groupable ([] ++ gs)).
      { intros a b Ha Hb; apply G; apply in_or_app; right; right; assumption. }
      destruct B as [|b B].
      * apply IH; [constructor|exact G'|]. rewrite <- app_assoc; exact H.
      * apply IH; [constructor|exact G'|].
        rewrite <- !app_assoc. change ([] ++ gs) with gs. change ([g] ++ gs) with (g :: gs).
        eapply gseq_app_congr; [|exact H]. intros L HL; apply gseq_sort; assumption.
    + apply IH.
      * apply Forall_app; split; [exact F|constructor; [exact Cg|constructor]].
      * rewrite <- app_assoc; exact G.
      * rewrite <- app_assoc; exact H.
Qed.
Lemma gseq_group : forall w ot vals n gs K, groupable gs ->
    gseq w ot vals n gs K -> gseq w ot vals n (group_by_index gs) K.
Proof. intros; apply gseq_group_loop; [constructor|assumption|assumption]. Qed.

Lemma apply_gates_group : forall w s gs vals ot mg,
    apply_gates w s (GMany gs) vals ot true mg = apply_gates w s (GMany (group_by_index gs)) vals ot false mg.
Proof. reflexivity. Qed.

Lemma Forall_perm : forall {A} (P : A -> Prop) l l', Permutation l l' -> Forall P l -> Forall P l'.
Proof.
  intros A P l l' H F; rewrite Forall_forall in *; intros x Hx; apply F.
  eapply Permutation_in; [apply Permutation_sym; exact H|exact Hx].
Qed.

Lemma group_nonempty : forall gs, gs <> [] -> group_by_index gs <> [].
Proof.
  intros gs H E; apply H. pose proof (group_by_index_perm gs) as P; rewrite E in P.
  apply Permutation_nil in P; exact P.
Qed.

Lemma apply_gates_dense_any : forall w n vals ot gr mg gs K a,
    gs <> [] -> Forall noiseless gs -> (gr = true -> groupable gs) -> gseq w ot vals n gs K -> is_state n a ->
    exists r, apply_gates w (SDense a) (GMany gs) vals ot gr mg = Ok (SDense r) /\ is_state n r /\
              veq n (amp r) (apply_kernel n K (amp a)).
Proof.
  intros w n vals ot [|] mg gs K a NE NN G HG HS; [|apply apply_gates_dense; assumption].
  rewrite apply_gates_group. apply apply_gates_dense; auto.
  - apply group_nonempty; exact NE.
  - eapply Forall_perm; [apply Permutation_sym, group_by_index_perm|exact NN].
  - apply gseq_group; auto.
Qed.
Lemma apply_gates_dm_any : forall w n vals ot gr mg gs K a,
    set_order (set_iter w) ->
    gs <> [] -> Forall noiseless gs -> (gr = true -> groupable gs) -> gseq w ot vals n gs K -> is_density n a ->
    exists r, apply_gates w (SDM a) (GMany gs) vals ot gr mg = Ok (SDM r) /\ is_density n r /\
              keq n (rho_entry r) (conjugate n K (rho_entry a)).
Proof.
  intros w n vals ot [|] mg gs K a SO NE NN G HG HS; [|apply apply_gates_dm; assumption].
  rewrite apply_gates_group. apply apply_gates_dm; auto.
  - apply group_nonempty; exact NE.
  - eapply Forall_perm; [apply Permutation_sym, group_by_index_perm|exact NN].
  - apply gseq_group; auto.
Qed.
