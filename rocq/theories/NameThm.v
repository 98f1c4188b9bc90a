(** * Parameter names do not matter (C114) *)
From Coq Require Import String List Arith Bool Reals ZArith Lia Lra.
From Verif Require Import Cplx Py PyFacts Ndarray OperatorUtils ApplyOperator Sparse Matrices Noise Gates Apply Composite Conversion Shots Gpsr Api
  Spec GateSpec PropSpec ExpectSpec SampleSpec SampleThm ExpectThm ExpectThm2 NameSpec.
Import ListNotations.
Local Open Scope nat_scope.

Lemma same_number_value : forall v v' p p', same_number v v' p p' -> exists x, param_value p v = Ok x /\ param_value p' v' = Ok x.
Proof.
  intros v v' p p' (x & S & S'). exists x. split; [destruct S as [x|s x E]|destruct S' as [x|s x E]]; cbn [param_value]; try reflexivity; rewrite E; reflexivity.
Qed.
Lemma parse_same : forall v v' g g', shift g = shift g' -> same_number v v' (gparam g) (gparam g') -> parse_values g v = parse_values g' v'.
Proof.
  intros v v' g g' ES N. destruct (same_number_value _ _ _ _ N) as (x & A & B). unfold parse_values. unfold param_value in A, B. rewrite ES.
  destruct (gparam g) as [s|y]; destruct (gparam g') as [s'|y'].
  - destruct (lookup v s) as [u|]; [|discriminate]. destruct (lookup v' s') as [u'|]; [|discriminate]. cbn [bind] in *. rewrite A, B. reflexivity.
  - destruct (lookup v s) as [u|]; [|discriminate]. cbn [bind] in *. rewrite A. injection B as ->. reflexivity.
  - destruct (lookup v' s') as [u'|]; [|discriminate]. cbn [bind] in *. rewrite B. injection A as ->. reflexivity.
  - injection A as ->. injection B as ->. reflexivity.
Qed.
Lemma same_gate_facts : forall w v v' g g', same_gate v v' g g' ->
    target g = target g' /\ control g = control g' /\ noise g = noise g' /\ forall ot, operator_of w ot g v = operator_of w ot g' v'.
Proof.
  intros w v v' g g' H. destruct H as [name t c ns sp|rot p p' t c ns sp I N|t c h x E1 E2 E3 E4].
  - repeat (split; [reflexivity|]). intro ot. assert (U : unitary_of w (Primitive name t c ns sp) v = unitary_of w (Primitive name t c ns sp) v') by reflexivity.
    destruct ot; cbn [operator_of]; [exact U|unfold dagger_of; rewrite U; reflexivity|reflexivity].
  - assert (F : target (rot p t c ns sp) = target (rot p' t c ns sp) /\ control (rot p t c ns sp) = control (rot p' t c ns sp) /\ noise (rot p t c ns sp) = noise (rot p' t c ns sp) /\
                gclass (rot p t c ns sp) = gclass (rot p' t c ns sp) /\ generator (rot p t c ns sp) = generator (rot p' t c ns sp) /\ sparse (rot p t c ns sp) = sparse (rot p' t c ns sp) /\
                shift (rot p t c ns sp) = shift (rot p' t c ns sp) /\ gparam (rot p t c ns sp) = p /\ gparam (rot p' t c ns sp) = p' /\
                (gclass (rot p t c ns sp) = KParam \/ gclass (rot p t c ns sp) = KPhase)).
    { destruct I as [<-|[<-|[<-|[<-|[]]]]]; repeat (split; [reflexivity|]); first [left; reflexivity|right; reflexivity]. }
    destruct F as (F1 & F2 & F3 & F4 & F5 & F6 & F7 & F8 & F9 & F10). repeat (split; [assumption|]).
    assert (P : parse_values (rot p t c ns sp) v = parse_values (rot p' t c ns sp) v') by (apply parse_same; [exact F7|rewrite F8, F9; exact N]).
    assert (U : unitary_of w (rot p t c ns sp) v = unitary_of w (rot p' t c ns sp) v').
    { unfold unitary_of. rewrite <- F4, F5, P, F6. destruct F10 as [-> | ->]; reflexivity. }
    intro ot. destruct ot; cbn [operator_of]; [exact U|unfold dagger_of; rewrite U; reflexivity|].
    unfold jacobian_of. rewrite <- F4, F5, P, F6. destruct F10 as [-> | ->]; reflexivity.
  - repeat (split; [reflexivity|]). assert (U : unitary_of w (HamiltonianEvolution t c) v = unitary_of w (HamiltonianEvolution t c) v').
    { unfold unitary_of. cbn [HamiltonianEvolution gclass]. rewrite E1, E2, E3, E4. reflexivity. }
    intro ot. destruct ot; cbn [operator_of]; [exact U|unfold dagger_of; rewrite U; reflexivity|reflexivity].
Qed.

Inductive same_arg (v v' : values) : gate_arg -> gate_arg -> Prop :=
| sa_one : forall g g', same_gate v v' g g' -> same_arg v v' (GOne g) (GOne g')
| sa_many : forall l l', Forall2 (same_gate v v') l l' -> same_arg v v' (GMany l) (GMany l').
Lemma apply_same : forall w v v' s ga ga' ot mg, same_arg v v' ga ga' -> apply_gates w s ga v ot false mg = apply_gates w s ga' v' ot false mg.
Proof.
  intros w v v' s ga ga' ot mg H. unfold apply_gates.
  replace (prepare_sequence_reduce w ga v ot false mg) with (prepare_sequence_reduce w ga' v' ot false mg); [reflexivity|].
  destruct H as [g g' S|l l' F]; cbn [prepare_sequence_reduce].
  - destruct (same_gate_facts w v v' g g' S) as (T & K & N & O). rewrite O, T, K, N. reflexivity.
  - assert (M : mapM (fun g => operator_of w ot g v') l' = mapM (fun g => operator_of w ot g v) l).
    { clear -F. induction F as [|g g' l l' S F IH]; [reflexivity|]. cbn [mapM]. destruct (same_gate_facts w v v' g g' S) as (_ & _ & _ & O). rewrite O, IH. reflexivity. }
    assert (N : map noise l' = map noise l).
    { clear -F w. induction F as [|g g' l l' S F IH]; [reflexivity|]. cbn [map]. destruct (same_gate_facts w v v' g g' S) as (_ & _ & N & _). rewrite N, IH. reflexivity. }
    assert (P : forall ops : list mat, map (fun og => (fst og, target (snd og), control (snd og))) (combine ops l') = map (fun og => (fst og, target (snd og), control (snd og))) (combine ops l)).
    { clear -F w. induction F as [|g g' l l' S F IH]; intro ops; [reflexivity|]. destruct ops as [|o ops]; [reflexivity|]. cbn [combine map fst snd].
      destruct (same_gate_facts w v v' g g' S) as (T & K & _ & _). rewrite T, K, IH. reflexivity. }
    rewrite M, N. destruct F as [|g g' l l' S F]; [reflexivity|]. destruct (mapM (fun g0 => operator_of w ot g0 v) (g :: l)); cbn [bind]; [|reflexivity]. rewrite P. reflexivity.
Qed.
Lemma gate_support_same : forall (w : world) v v' g g', same_gate v v' g g' -> gate_support g = gate_support g'.
Proof. intros w v v' g g' S. destruct (same_gate_facts w v v' g g' S) as (T & K & _ & _). unfold gate_support. rewrite T, K. reflexivity. Qed.

Lemma F2_IH : forall (P : oper -> Prop) l, Forall P l -> forall (R S : oper -> oper -> Prop), (forall o, P o -> forall o', R o o' -> S o o') -> forall l', Forall2 R l l' -> Forall2 S l l'.
Proof.
  intros P l F R S I l' F2. induction F2 as [|o o' l l' H F2 IH]; [constructor|]. inversion F; subst. constructor; [eapply I; eassumption|apply IH; assumption].
Qed.
Lemma mapM_F2 : forall {A B C} (f : A -> res C) (g : B -> res C) l l', Forall2 (fun a b => f a = g b) l l' -> mapM f l = mapM g l'.
Proof. intros A B C f g l l' F. induction F as [|a b l l' E F IH]; [reflexivity|]. cbn [mapM]. rewrite E, IH. reflexivity. Qed.
Lemma foldM_F2 : forall {A B S} (f : S -> A -> res S) (g : S -> B -> res S) l l', Forall2 (fun a b => forall s, f s a = g s b) l l' -> forall s, foldM f l s = foldM g l' s.
Proof. intros A B S f g l l' F. induction F as [|a b l l' E F IH]; intro s; [reflexivity|]. cbn [foldM]. rewrite E. destruct (g s b); cbn [bind]; auto. Qed.
Lemma reduce_F2 : forall {A B C} (f : A -> res C) (g : B -> res C) op l l', Forall2 (fun a b => f a = g b) l l' -> reduce_map f op l = reduce_map g op l'.
Proof.
  intros A B C f g op l l' F. destruct F as [|a b l l' E F]; [reflexivity|]. unfold reduce_map. rewrite E. destruct (g b); cbn [bind]; [|reflexivity].
  apply foldM_F2. eapply F2_impl; [|exact F]. cbv beta. intros x y Exy s. rewrite Exy. reflexivity.
Qed.
Lemma support_same : forall w v v' o o', same_operation v v' o o' -> support w o = support w o'.
Proof.
  intros w v v'. induction o as [g|l IH|l p IH|l IH|l IH|n l fp IH] using oper_ind'; intros o' H; inversion H as [g0 g' S|a l' F|a l' b p' F N|a l' F|a l' F|a b l' d fp' F]; subst; cbn [support];
    try (rewrite (mapM_F2 (support w) (support w) l l'); [reflexivity|eapply F2_IH; [exact IH| |exact F]; cbv beta; intros o P o' R; apply P; exact R]).
  eapply gate_support_same; [exact w|exact S].
Qed.
Lemma resolve_same : forall w v v' l l' fs, Forall2 (same_operation v v') l l' -> resolve_support w l fs = resolve_support w l' fs.
Proof.
  intros w v v' l l' fs F. unfold resolve_support. rewrite (mapM_F2 (support w) (support w) l l'); [reflexivity|]. eapply F2_impl; [|exact F]. intros a b S. eapply support_same; exact S.
Qed.
Lemma tensor_same : forall w v v' o o', same_operation v v' o o' -> forall fs, tensor w v o fs = tensor w v' o' fs.
Proof.
  intros w v v'. induction o as [g|l IH|l p IH|l IH|l IH|n l fp IH] using oper_ind'; intros o' H; inversion H as [g0 g' S|a l' F|a l' b p' F N|a l' F|a l' F|a b l' d fp' F]; subst; intro fs; cbn [tensor].
  1: { destruct (same_gate_facts w v v' g g' S) as (T & K & _ & O). pose proof (O UNITARY) as U. cbn [operator_of] in U. unfold gate_tensor. rewrite U, T, K, (gate_support_same w v v' g g' S). reflexivity. }
  all: assert (X : forall fs f op, reduce_map (fun o => tensor w v o fs) op l = f -> reduce_map (fun o => tensor w v' o fs) op l' = f)
    by (intros fs0 f op <-; symmetry; apply reduce_F2; eapply F2_IH; [exact IH| |exact F]; cbv beta; intros o P o' R; apply P; exact R).
  all: rewrite (resolve_same w v v' l l' fs F).
  1, 3, 4, 5: destruct (resolve_support w l' fs); cbn [bind]; [symmetry; apply X; reflexivity|reflexivity].
  destruct (same_number_value _ _ _ _ N) as (x & A & B). rewrite A, B. cbn [bind]. destruct (resolve_support w l' fs); cbn [bind]; [|reflexivity]. rewrite (X _ _ _ eq_refl). reflexivity.
Qed.
Lemma call_same : forall w v v' o o', same_operation v v' o o' -> forall s, call w v o s = call w v' o' s.
Proof.
  intros w v v'. induction o as [g|l IH|l p IH|l IH|l IH|n l fp IH] using oper_ind'; intros o' H; pose proof H as H0; inversion H as [g0 g' S|a l' F|a l' b p' F N|a l' F|a l' F|a b l' d fp' F]; subst; intro s.
  1: { cbn [call]. assert (E : forall s, apply_gates w s (GOne g) v UNITARY false true = apply_gates w s (GOne g') v' UNITARY false true) by (intro s1; apply apply_same; constructor; exact S).
       destruct s as [s|]; cbn [bind]; [rewrite E; reflexivity|]. rewrite (gate_support_same w v v' g g' S). destruct (gate_support g'); cbn [bind]; [rewrite E|]; reflexivity. }
  all: assert (FC : Forall2 (fun a b => forall s, call w v a s = call w v' b s) l l') by (eapply F2_IH; [exact IH| |exact F]; cbv beta; intros o P o' R; apply P; exact R).
  all: assert (X1 : forall s, foldM (fun s o => call w v o s) l s = foldM (fun s o => call w v' o s) l' s) by (intro s1; apply foldM_F2; exact FC).
  all: assert (X2 : forall s, reduce_map (fun o => call w v o s) add_state l = reduce_map (fun o => call w v' o s) add_state l')
    by (intro s1; apply reduce_F2; eapply F2_impl; [|exact FC]; cbv beta; intros x y Exy; apply Exy).
  - cbn [call]. apply X1.
  - cbn [call]. destruct (same_number_value _ _ _ _ N) as (x & A & B). rewrite A, B. cbn [bind]. rewrite X1. reflexivity.
  - cbn [call]. apply X2.
  - cbn [call]. destruct s as [[a|b|a]|]; [rewrite X2; reflexivity|rewrite X2; reflexivity| |reflexivity].
    rewrite (tensor_same w v v' _ _ H0 None). rewrite (support_same w v v' _ _ H0). reflexivity.
  - cbn [call]. apply X1.
Qed.
Lemma flatten_same : forall v v' o o', same_operation v v' o o' -> Forall2 (same_operation v v') (flatten o) (flatten o').
Proof.
  intros v v'. assert (L : forall l l', Forall2 (fun a b => Forall2 (same_operation v v') (flatten a) (flatten b)) l l' -> Forall2 (same_operation v v') (flat_map flatten l) (flat_map flatten l')).
  { intros l l' F. induction F; cbn [flat_map]; [constructor|]. apply Forall2_app; assumption. }
  induction o as [g|l IH|l p IH|l IH|l IH|n l fp IH] using oper_ind'; intros o' H; inversion H as [g0 g' S|a l' F|a l' b p' F N|a l' F|a l' F|a b l' d fp' F]; subst; cbn [flatten];
    try (apply L; eapply F2_IH; [exact IH| |exact F]; cbv beta; intros o P o' R; apply P; exact R).
  constructor; [exact H|constructor].
Qed.
Lemma iter_same : forall v v' o o', same_operation v v' o o' -> Forall2 (same_operation v v') (iter o) (iter o').
Proof.
  intros v v' o o' H. pose proof (flatten_same v v' o o' H) as F. destruct H; try exact F. constructor; [constructor; assumption|constructor].
Qed.
Lemma gates_of_same : forall v v' l l', Forall2 (same_operation v v') l l' ->
    (exists gs gs', gates_of l = Ok gs /\ gates_of l' = Ok gs' /\ Forall2 (same_gate v v') gs gs') \/ (exists e, gates_of l = Err e /\ gates_of l' = Err e).
Proof.
  intros v v' l l' F. induction F as [|o o' l l' H F IH]; [left; exists [], []; repeat split; constructor|].
  destruct H as [g g' S| | | | |]; try (right; eexists; split; reflexivity). cbn [gates_of].
  destruct IH as [(gs & gs' & E & E' & FG)|(e & E & E')]; rewrite E, E'; cbn [bind]; [left; eexists _, _; repeat split; constructor; assumption|right; eauto].
Qed.
Lemma same_returns : forall v v' o o', same_operation v v' o o' -> returns_input o = returns_input o'.
Proof.
  intros v v'. induction o as [g|l IH|l p IH|l IH|l IH|n l fp IH] using oper_ind'; intros o' H; inversion H as [g0 g' S|a l' F|a l' b p' F N|a l' F|a l' F|a b l' d fp' F]; subst; cbn [returns_input]; try reflexivity.
  1, 3: clear H; induction F as [|x y l l' R F IHF]; [reflexivity|]; inversion IH as [|? ? P IH']; subst; cbn [forallb]; rewrite (P y R); f_equal; apply IHF; assumption.
  destruct F as [|x y l l' R F]; [reflexivity|]. inversion IH as [|? ? P IH']; subst. destruct F; [apply P; exact R|reflexivity].
Qed.
Lemma same_forward : forall w v v' l l' s, Forall2 (same_operation v v') l l' -> forward w v l s = forward w v' l' s.
Proof. intros w v v' l l' s F. unfold forward. apply reduce_F2. eapply F2_impl; [|exact F]. cbv beta. intros a b S. apply call_same; exact S. Qed.
Lemma same_single : forall w v v' l l' s, Forall2 (same_operation v v') l l' -> ad_single w s l v = ad_single w s l' v'.
Proof.
  intros w v v' l l' s F. unfold ad_single. rewrite (same_forward w v v' l l' (Some s) F), (tensor_same w v v' (OObs l) (OObs l') (so_observable _ _ _ _ F) None), (support_same w v v' (OObs l) (OObs l') (so_observable _ _ _ _ F)). reflexivity.
Qed.
Lemma same_finite : forall w v v' s ga ga' obs obs' k key, same_arg v v' ga ga' -> Forall2 (Forall2 (same_operation v v')) obs obs' ->
    finite_shots w s ga obs v k key = finite_shots w s ga' obs' v' k key.
Proof.
  intros w v v' s ga ga' obs obs' k key A F. unfold finite_shots. rewrite (apply_same w v v' s ga ga' UNITARY true A).
  destruct (apply_gates w s ga' v' UNITARY false true) as [out|]; cbn [bind]; [|reflexivity]. destruct (num_qubits out) as [n|]; cbn [bind]; [|reflexivity].
  destruct (square_dm out n) as [sq|]; cbn [bind]; [|reflexivity]. unfold eigen_sample, eigen_prepare.
  rewrite (mapM_F2 _ (fun l => let! t := tensor w v' (OObs l) None in let! sup := support w (OObs l) in let! e := expand_operator t sup (seq 0 n) in reshape e [2 ^ n; 2 ^ n]) obs obs'); [reflexivity|].
  eapply F2_impl; [|exact F]. cbv beta. intros l l' S.
  rewrite (tensor_same w v v' (OObs l) (OObs l') (so_observable _ _ _ _ S) None), (support_same w v v' (OObs l) (OObs l') (so_observable _ _ _ _ S)). reflexivity.
Qed.
Lemma values_flat : forall v, flat_values v -> values_processing v = Ok (v, v).
Proof.
  intros v F. unfold values_processing. assert (H : forall k, lookup v k = Err KeyError -> has_key v k = false).
  { intro k. clear F. induction v as [|[k' x] v IH]; cbn; [reflexivity|]. destruct (String.eqb k k'); [discriminate|exact IH]. }
  destruct F as [F|F]; rewrite (H _ F); [reflexivity|rewrite andb_false_r; reflexivity].
Qed.
Lemma c114_names : forall w vals vals' c c', same_operation vals vals' c c' ->
    (forall st, run w c st vals = run w c' st vals') /\
    (forall st k, sample w st c vals k = sample w st c' vals' k) /\
    (forall full_support, tensor w vals c full_support = tensor w vals' c' full_support) /\
    (forall st obs obs' mode shots key, flat_values vals -> flat_values vals' -> Forall2 (Forall2 (same_operation vals vals')) obs obs' ->
       expectation w st c obs vals mode shots key = expectation w st c' obs' vals' mode shots key).
Proof.
  intros w v v' c c' H. assert (HC := call_same w v v' c c' H). split; [intro st; apply HC|]. split; [|split; [apply tensor_same; exact H|]].
  - intros st k. unfold sample. rewrite HC, (same_returns v v' c c' H). reflexivity.
  - intros st obs obs' mode shots key FV FV' FO.
    assert (A : ad_expectation w st c obs v = ad_expectation w st c' obs' v').
    { unfold ad_expectation. rewrite (values_flat v FV), (values_flat v' FV'). cbn [bind fst snd]. f_equal. apply mapM_F2. eapply F2_impl; [|exact FO]. cbv beta. intros l l' S.
      unfold run_flat. destruct (gates_of_same v v' _ _ (iter_same v v' c c' H)) as [(gs & gs' & -> & -> & FG)|(e & -> & ->)]; cbn [bind]; [|reflexivity].
      rewrite (apply_same w v v' st _ _ UNITARY true (sa_many v v' _ _ FG)). destruct (apply_gates w st (GMany gs') v' UNITARY false true); cbn [bind]; [|reflexivity]. apply same_single; exact S. }
    assert (J : adjoint_expectation w st c obs v = adjoint_expectation w st c' obs' v').
    { unfold adjoint_expectation. f_equal. apply mapM_F2. eapply F2_impl; [|exact FO]. cbv beta. intros l l' S.
      unfold adjoint_single, run_flat. destruct (gates_of_same v v' _ _ (iter_same v v' c c' H)) as [(gs & gs' & -> & -> & FG)|(e & -> & ->)]; cbn [bind]; [|reflexivity].
      rewrite (apply_same w v v' st _ _ UNITARY true (sa_many v v' _ _ FG)). destruct (apply_gates w st (GMany gs') v' UNITARY false true); cbn [bind]; [|reflexivity].
      rewrite (same_forward w v v' l l' _ S). reflexivity. }
    assert (G : forall n, (let! gs := gates_of (iter c) in finite_shots w st (GMany gs) obs v n key) = (let! gs := gates_of (iter c') in finite_shots w st (GMany gs) obs' v' n key)).
    { intro n. destruct (gates_of_same v v' _ _ (iter_same v v' c c' H)) as [(gs & gs' & -> & -> & FG)|(e & -> & ->)]; cbn [bind]; [|reflexivity]. apply same_finite; [constructor; exact FG|exact FO]. }
    assert (P : (let! gs := gates_of (iter c) in analytical_expectation w st (GMany gs) obs v) = (let! gs := gates_of (iter c') in analytical_expectation w st (GMany gs) obs' v')).
    { destruct (gates_of_same v v' _ _ (iter_same v v' c c' H)) as [(gs & gs' & -> & -> & FG)|(e & -> & ->)]; cbn [bind]; [|reflexivity]. unfold analytical_expectation.
      f_equal. apply mapM_F2. eapply F2_impl; [|exact FO]. cbv beta. intros l l' S.
      rewrite (apply_same w v v' st _ _ UNITARY true (sa_many v v' _ _ FG)). destruct (apply_gates w st (GMany gs') v' UNITARY false true); cbn [bind]; [|reflexivity]. apply same_single; exact S. }
    unfold expectation. rewrite A, J, G, P. reflexivity.
Qed.
