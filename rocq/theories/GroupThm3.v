(** * Grouping, for every list of gates (C12) *)
From Coq Require Import String List Arith Bool Reals Lia Permutation.
From Verif Require Import Cplx Py PyFacts Ndarray OperatorUtils Sparse Matrices Noise Gates Apply GroupSpec GroupFacts.
Import ListNotations.
Local Open Scope nat_scope.

Lemma lex_false : forall a b, lex_leb a b = false -> tuple_before b a.
Proof.
  induction a as [|x a IH]; intros b H; [discriminate|]. destruct b as [|y b]; cbn [lex_leb] in H.
  - exists [], a. left. exists x. split; reflexivity.
  - destruct (Nat.ltb x y) eqn:E1; [discriminate|]. destruct (Nat.ltb y x) eqn:E2.
    + apply Nat.ltb_lt in E2. exists [], a. right. exists y, x, b. repeat split; auto.
    + apply Nat.ltb_ge in E1, E2. assert (x = y) by lia. subst y. destruct (IH b H) as (p & b' & D). exists (x :: p), b'.
      destruct D as [(z & -> & ->)|(u & v & a' & -> & -> & L)]; [left; exists z; split; reflexivity|right; exists u, v, a'; repeat split; exact L].
Qed.
Lemma before_lex : forall a b, tuple_before b a -> lex_leb a b = false.
Proof.
  intros a b (p & b' & [(y & -> & ->)|(x & y & a' & -> & -> & L)]); induction p as [|z p IH]; cbn [app lex_leb]; try (rewrite Nat.ltb_irrefl; exact IH).
  - reflexivity.
  - assert (Nat.ltb y x = false) as -> by (apply Nat.ltb_ge; lia). assert (Nat.ltb x y = true) as -> by (apply Nat.ltb_lt; lia). reflexivity.
Qed.
Lemma lex_total : forall a b, lex_leb a b = true \/ lex_leb b a = true.
Proof.
  induction a as [|x a IH]; intros [|y b]; cbn [lex_leb]; auto.
  destruct (Nat.ltb x y) eqn:E1; [auto|]. destruct (Nat.ltb y x) eqn:E2; [auto|]. apply IH.
Qed.
Lemma lex_antisym : forall a b, lex_leb a b = true -> lex_leb b a = true -> a = b.
Proof.
  induction a as [|x a IH]; intros [|y b]; cbn [lex_leb]; intros H1 H2; try reflexivity; try discriminate.
  destruct (Nat.ltb x y) eqn:E1; destruct (Nat.ltb y x) eqn:E2; try discriminate.
  - apply Nat.ltb_lt in E1, E2; lia.
  - apply Nat.ltb_ge in E1, E2. f_equal; [lia|apply IH; assumption].
Qed.
Lemma lex_trans : forall a b c, lex_leb a b = true -> lex_leb b c = true -> lex_leb a c = true.
Proof.
  induction a as [|x a IH]; intros [|y b] [|z c]; cbn [lex_leb]; intros H1 H2; try reflexivity; try discriminate.
  destruct (Nat.ltb_spec x y); destruct (Nat.ltb_spec y x); try lia; try discriminate;
    destruct (Nat.ltb_spec y z); destruct (Nat.ltb_spec z y); try lia; try discriminate;
    destruct (Nat.ltb_spec x z); destruct (Nat.ltb_spec z x); try lia; try reflexivity. eapply IH; eassumption.
Qed.

Notation leg := (fun g h : gate => lex_leb (target g) (target h)).
(** every element is below all the later ones *)
Inductive chain : list gate -> Prop :=
| ch_nil : chain []
| ch_cons : forall g l, (forall h, In h l -> lex_leb (target g) (target h) = true) -> chain l -> chain (g :: l).
Lemma chain_insert : forall l g, chain l -> chain (insert_by leg g l).
Proof.
  induction 1 as [|h l H C IH]; cbn [insert_by]; [constructor; [intros ? []|constructor]|].
  destruct (lex_leb (target g) (target h)) eqn:E.
  - constructor; [|constructor; assumption]. intros k [<-|K]; [exact E|]. eapply lex_trans; [exact E|apply H, K].
  - constructor; [|exact IH]. intros k K. eapply Permutation_in in K; [|apply insert_by_perm]. destruct K as [<-|K]; [|apply H, K].
    destruct (lex_total (target g) (target h)) as [X|X]; [congruence|exact X].
Qed.
Lemma chain_sort : forall l, chain (sort_by leg l).
Proof. induction l as [|g l IH]; cbn [sort_by]; [constructor|apply chain_insert, IH]. Qed.
Lemma chain_split : forall l1 g l2 h l3, chain (l1 ++ g :: l2 ++ h :: l3) -> lex_leb (target g) (target h) = true.
Proof.
  induction l1 as [|k l1 IH]; intros g l2 h l3 C; cbn [app] in C; inversion C as [|? ? H C']; subst.
  - apply H, in_or_app; right; left; reflexivity.
  - eapply IH, C'.
Qed.
Lemma split_chain : forall l, (forall l1 g l2 h l3, l = l1 ++ g :: l2 ++ h :: l3 -> ~ tuple_before (target h) (target g)) -> chain l.
Proof.
  induction l as [|g l IH]; intro H; [constructor|]. constructor.
  - intros h Hh. apply in_split in Hh as (l2 & l3 & ->). destruct (lex_leb (target g) (target h)) eqn:E; [reflexivity|].
    exfalso. apply (H [] g l2 h l3 eq_refl), lex_false, E.
  - apply IH. intros l1 k l2 h l3 ->. apply (H (g :: l1) k l2 h l3 eq_refl).
Qed.

Notation has ts := (fun g : gate => if list_eq_dec Nat.eq_dec (target g) ts then true else false).
Lemma filter_insert : forall ts l g, filter (has ts) (insert_by leg g l) = filter (has ts) (g :: l).
Proof.
  intros ts l g. induction l as [|h l IH]; cbn [insert_by]; [reflexivity|].
  destruct (lex_leb (target g) (target h)) eqn:E; [reflexivity|]. cbn [filter] in *. rewrite IH.
  destruct (list_eq_dec Nat.eq_dec (target g) ts) as [G|G]; destruct (list_eq_dec Nat.eq_dec (target h) ts) as [K|K]; try reflexivity.
  rewrite G, K, lex_leb_refl in E. discriminate.
Qed.
Lemma filter_sort : forall ts l, filter (has ts) (sort_by leg l) = filter (has ts) l.
Proof.
  intros ts l. induction l as [|g l IH]; cbn [sort_by]; [reflexivity|]. rewrite filter_insert. cbn [filter]. rewrite IH. reflexivity.
Qed.
Lemma sort_ordered : forall l, ordered_by_target l (sort_batch l).
Proof.
  intro l. split; [apply Permutation_sym, sort_by_perm|]. split; [intro ts; apply filter_sort|].
  intros l1 g l2 h l3 E B. apply before_lex in B. unfold sort_batch in E. pose proof (chain_sort l) as C. rewrite E in C. apply chain_split in C. congruence.
Qed.
Lemma has_in : forall (g : gate) l, In g l -> In g (filter (has (target g)) l).
Proof. intros g l H. apply filter_In. split; [exact H|]. destruct (list_eq_dec Nat.eq_dec (target g) (target g)) as [_|X]; [reflexivity|contradiction]. Qed.
Lemma chain_unique : forall l l', chain l -> chain l' -> (forall ts, filter (has ts) l = filter (has ts) l') -> l = l'.
Proof.
  intros l l' C. revert l'. induction C as [|g l H C IH]; intros l' C' F.
  - destruct l' as [|h l']; [reflexivity|]. exfalso. pose proof (has_in h (h :: l') (or_introl eq_refl)) as X. rewrite <- F in X. destruct X.
  - destruct C' as [|h l' H' C']. { exfalso. pose proof (has_in g (g :: l) (or_introl eq_refl)) as X. rewrite F in X. destruct X. }
    assert (E : target g = target h).
    { pose proof (has_in g (g :: l) (or_introl eq_refl)) as X. rewrite F in X. apply filter_In in X as [X _].
      pose proof (has_in h (h :: l') (or_introl eq_refl)) as Y. rewrite <- F in Y. apply filter_In in Y as [Y _].
      destruct X as [->|X]; [reflexivity|]. destruct Y as [->|Y]; [reflexivity|]. apply lex_antisym; [apply H, Y|apply H', X]. }
    assert (G : g = h).
    { pose proof (F (target g)) as X. cbn [filter] in X. rewrite <- E in X. destruct (list_eq_dec Nat.eq_dec (target g) (target g)); [|contradiction]. congruence. }
    subst h. f_equal. apply IH; [exact C'|]. intro ts. pose proof (F ts) as X. cbn [filter] in X. destruct (list_eq_dec Nat.eq_dec (target g) ts); congruence.
Qed.
Lemma ordered_unique : forall l l', ordered_by_target l l' -> l' = sort_batch l.
Proof.
  intros l l' (_ & F & S). apply chain_unique; [apply split_chain, S|apply chain_sort|]. intro ts. rewrite F. symmetry. apply filter_sort.
Qed.

(** the loop on a run of uncontrolled gates *)
Lemma loop_run : forall run S B rest, Forall (fun g => is_controlled (control g) = false) run ->
    group_loop S B (run ++ rest) = group_loop S (B ++ run) rest.
Proof.
  induction run as [|g run IH]; intros S B rest F; cbn [app]; [rewrite app_nil_r; reflexivity|]. inversion F as [|? ? Fg F']; subst.
  cbn [group_loop]. rewrite Fg. cbn [negb]. rewrite IH by exact F'. rewrite <- app_assoc. reflexivity.
Qed.
Lemma loop_done : forall gs S, group_loop S [] gs = S ++ group_loop [] [] gs.
Proof.
  assert (Q : forall gs S B, group_loop S B gs = S ++ group_loop [] B gs).
  { induction gs as [|g gs IH]; intros S B; cbn [group_loop].
    - destruct B; [rewrite app_nil_r; reflexivity|reflexivity].
    - destruct (negb (is_controlled (control g))); [apply IH|]. destruct B as [|b B].
      + rewrite (IH (S ++ [g])), (IH ([] ++ [g])). rewrite app_assoc. reflexivity.
      + rewrite (IH ((S ++ _) ++ [g])), (IH (([] ++ _) ++ [g])). cbn [app]. rewrite !app_assoc. reflexivity. }
  intros; apply Q.
Qed.
Lemma group_run : forall run, Forall (fun g => is_controlled (control g) = false) run -> group_by_index run = sort_batch run.
Proof.
  intros run F. unfold group_by_index. rewrite <- (app_nil_r run) at 1. rewrite loop_run by exact F. cbn [app group_loop]. destruct run; reflexivity.
Qed.
Lemma group_cut : forall run g gs, Forall (fun h => is_controlled (control h) = false) run -> is_controlled (control g) = true ->
    group_by_index (run ++ g :: gs) = sort_batch run ++ g :: group_by_index gs.
Proof.
  intros run g gs F G. unfold group_by_index. rewrite loop_run by exact F. cbn [app group_loop]. rewrite G. cbn [negb].
  destruct run as [|b run]; rewrite loop_done; cbn [app sort_batch sort_by]; [reflexivity|]. rewrite <- app_assoc. reflexivity.
Qed.
Lemma regrouped_unique : forall gs gs', regrouped gs gs' -> gs' = group_by_index gs.
Proof.
  induction 1 as [run run' F O|run run' g gs gs' F O G H IH].
  - rewrite group_run by exact F. apply ordered_unique, O.
  - rewrite group_cut by assumption. rewrite <- IH. rewrite (ordered_unique _ _ O). reflexivity.
Qed.
Lemma regrouped_acc : forall gs acc, Forall (fun g => is_controlled (control g) = false) acc -> exists gs', regrouped (acc ++ gs) gs'.
Proof.
  induction gs as [|g gs IH]; intros acc F.
  - exists (sort_batch acc). rewrite app_nil_r. apply rg_run; [exact F|apply sort_ordered].
  - destruct (is_controlled (control g)) eqn:G.
    + destruct (IH [] ltac:(constructor)) as (gs' & R). exists (sort_batch acc ++ g :: gs'). apply rg_cut; auto. apply sort_ordered.
    + destruct (IH (acc ++ [g])) as (gs' & R); [apply Forall_app; split; [exact F|constructor; [exact G|constructor]]|]. exists gs'.
      rewrite <- app_assoc in R. exact R.
Qed.
Lemma c12_exact : forall gs, (exists gs', regrouped gs gs') /\
    forall gs', regrouped gs gs' -> forall w s vals ot mg,
      apply_gates w s (GMany gs) vals ot true mg = apply_gates w s (GMany gs') vals ot false mg.
Proof.
  intro gs. split; [apply (regrouped_acc gs []); constructor|]. intros gs' R w s vals ot mg. rewrite (regrouped_unique _ _ R). apply apply_gates_group.
Qed.
