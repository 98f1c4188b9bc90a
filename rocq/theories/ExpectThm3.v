(** * Density-matrix expectations when the set of qubits is iterated in any order (C41) *)
From Coq Require Import String List Arith Bool Reals Lia Lra ZArith Permutation Sorting.Sorted.
From Verif Require Import Cplx Py PyFacts Ndarray OperatorUtils Sparse Matrices Noise Gates Apply Composite Conversion Shots Gpsr Api
  Spec SpecFacts Deriv GateSpec PropSpec NoiseSpec SampleSpec ExpectSpec GpsrSpec GateFacts CircuitFacts AlgebraFacts ApplyThm GateThm TensorFacts TensorThm SubThm
  KrausThm NoiseThm NoiseThm2 SeqThm SampleThm ShotsSpec ShotsThm ExpectThm ExpectThm2 GpsrFacts GpsrThm StructSpec PhysSpec PhysThm PhysThm2 PhysThm6.
Import ListNotations.
Local Open Scope nat_scope.

(** the permutation that sends [s'] to [s], entry by entry *)
Definition exchange (s' s : list nat) (q : nat) : nat := if in_dec Nat.eq_dec q s' then nth (index_of q s') s 0 else q.
Lemma exchange_map : forall s' s, NoDup s' -> length s' = length s -> map (exchange s' s) s' = s.
Proof.
  intros s' s ND L. apply nth_ext with (d := exchange s' s 0) (d' := 0); [rewrite map_length; exact L|]. rewrite map_length. intros i Hi.
  rewrite map_nth. unfold exchange. destruct (in_dec Nat.eq_dec (nth i s' 0) s') as [_|N]; [|elim N; apply nth_In; exact Hi]. rewrite index_of_nth by assumption. reflexivity.
Qed.
Lemma exchange_out : forall s' s q, ~ In q s' -> exchange s' s q = q.
Proof. intros s' s q N. unfold exchange. destruct (in_dec Nat.eq_dec q s'); [contradiction|reflexivity]. Qed.
Lemma exchange_in : forall s' s q, length s' = length s -> In q s' -> In (exchange s' s q) s.
Proof. intros s' s q L I. unfold exchange. destruct (in_dec Nat.eq_dec q s'); [|contradiction]. apply nth_In. rewrite <- L. apply index_of_lt. exact I. Qed.
Lemma exchange_permutes : forall n s' s, Permutation s' s -> NoDup s -> (forall q, In q s -> q < n) -> permutes n (exchange s' s).
Proof.
  intros n s' s PM ND B. assert (ND' : NoDup s') by (eapply Permutation_NoDup; [apply Permutation_sym; exact PM|exact ND]). pose proof (Permutation_length PM) as L.
  split.
  - apply NoDup_map_inj; [|apply seq_NoDup]. intros x y _ _ E. destruct (in_dec Nat.eq_dec x s') as [Ix|Nx]; destruct (in_dec Nat.eq_dec y s') as [Iy|Ny].
    + unfold exchange in E. destruct (in_dec Nat.eq_dec x s'); [|contradiction]. destruct (in_dec Nat.eq_dec y s'); [|contradiction].
      rewrite (NoDup_nth s 0) in ND. apply ND in E; [|rewrite <- L; apply index_of_lt; assumption..].
      rewrite <- (nth_index_of x s'), <- (nth_index_of y s') by assumption. rewrite E. reflexivity.
    + rewrite (exchange_out s' s y Ny) in E. elim Ny. apply (Permutation_in y (Permutation_sym PM)). rewrite <- E. apply exchange_in; assumption.
    + rewrite (exchange_out s' s x Nx) in E. elim Nx. apply (Permutation_in x (Permutation_sym PM)). rewrite E. apply exchange_in; assumption.
    + rewrite !exchange_out in E by assumption. exact E.
  - apply Forall_forall. intros x Hx. apply in_map_iff in Hx as (q & <- & Hq). apply in_seq in Hq.
    destruct (in_dec Nat.eq_dec q s') as [I|N]; [apply B, exchange_in; assumption|rewrite exchange_out by exact N; lia].
Qed.

Lemma c41_exact : forall w n vals circuit gs st r l K s s' key,
    set_order (set_iter w) -> flat_values vals ->
    sequence_of circuit gs -> gs <> [] -> Forall dense_gate gs -> state_of n st ->
    (exists a, st = SDM a) \/ (exists g, In g gs /\ noise g <> None) ->
    noisy_run n vals gs (density_of st) r ->
    observable_on w n vals false l K -> support w (OObs l) = Ok s -> StronglySorted lt s' -> Permutation s' s ->
    exists f, permutes n f /\ map f s' = s /\ (forall q, ~ In q s -> f q = q) /\
      expectation w st circuit [l] vals AD 0 key = Ok [mean_density n (fun x y => K (read_through n f x) (read_through n f y)) r].
Proof.
  intros w n vals circuit gs st r l K s s' key SO FV HQ NG FD HS EX HR HO ES SS PM.
  assert (H : exists out, run_flat w st circuit vals = Ok (SDM out) /\ is_density n out /\ keq n (rho_entry out) r).
  { destruct st as [psi|b|rho]; [|contradiction|].
    - destruct EX as [(a & Q)|EX]; [discriminate|]. eapply flat_pure_noisy; eassumption.
    - eapply flat_density; eassumption. }
  destruct H as (out & Eo & Do & Ko).
  destruct (obs_tensor w n vals l K SO HO) as (s0 & m & Es & SB & Em & Mm & Km). rewrite ES in Es. injection Es as <-.
  assert (SR : sorted s = s').
  { rewrite <- (sorted_strong s' SS). apply sorted_perm_eq, Permutation_sym. exact PM. }
  destruct SB as [ND B]. assert (ND' : NoDup s') by (eapply Permutation_NoDup; [apply Permutation_sym; exact PM|exact ND]).
  pose proof (exchange_permutes n s' s PM ND B) as PE. pose proof (exchange_map s' s ND' (Permutation_length PM)) as ME.
  exists (exchange s' s). split; [exact PE|]. split; [exact ME|]. split.
  - intros q N. apply exchange_out. intro I. apply N. eapply Permutation_in; eassumption.
  - cbn [expectation Z.ltb Z.eqb Z.compare]. unfold ad_expectation.
    rewrite (values_routed vals vals vals); [|right; auto]. cbn [bind fst snd]. rewrite Eo. cbn [bind mapM]. unfold ad_single. rewrite Em, ES; cbn [bind].
    rewrite (dm_spec n out m s Do Mm); [|split; assumption]. cbn [bind stack]. do 2 f_equal. apply mean_density_ext; [|exact Ko].
    intros x y Hx Hy. pose proof (pulled_kernel n (exchange s' s) PE (entry m) [] s') as PK. cbn [map app] in PK. rewrite ME in PK.
    rewrite PK; [|split; [exact ND'|apply Forall_forall; intros q I; apply B; eapply Permutation_in; eassumption]|exact Hx|exact Hy].
    rewrite SR in Km. apply Km; apply pull_bits; assumption.
Qed.

(** ** composites are flattened (C43, C45) *)
Lemma flatten_gates : forall o, flatten o = map OGate (all_gates o).
Proof.
  fix IH 1. assert (L : forall l, flat_map flatten l = map OGate (flat_map all_gates l)).
  { induction l as [|o l IHl]; [reflexivity|]. cbn [flat_map]. rewrite map_app, IH, IHl. reflexivity. }
  intros [g|l|l p|l|l|m l fp]; cbn [flatten all_gates]; [reflexivity|apply L..].
Qed.
Lemma iter_gates : forall o, (forall l p, o <> OScale l p) -> iter o = iter (OSeq (map OGate (all_gates o))).
Proof.
  assert (S : forall gs, flat_map flatten (map OGate gs) = map OGate gs) by (induction gs as [|g gs IHg]; [reflexivity|simpl; rewrite IHg; reflexivity]).
  intros o N. cbn [iter]. rewrite S, <- flatten_gates. destruct o; try reflexivity. exfalso. eapply N. reflexivity.
Qed.
Lemma c43_flatten : forall w st o obs vals mode k key, (forall l p, o <> OScale l p) ->
    expectation w st o obs vals mode k key = expectation w st (OSeq (map OGate (all_gates o))) obs vals mode k key.
Proof.
  intros w st o obs vals mode k key N. pose proof (iter_gates o N) as E.
  unfold expectation, ad_expectation, adjoint_expectation, adjoint_single, run_flat. rewrite E.
  reflexivity.
Qed.
Lemma c45_flatten : forall w o p st vals, (forall l q, o <> OScale l q) ->
    run w (Scale (AOp o) p) st vals = run w (Scale (AList [OpSequence (map OGate (all_gates o))]) p) st vals.
Proof.
  intros w o p st vals N. unfold run, Scale, OpSequence, list_of. rewrite (iter_gates o N). cbn [iter].
  assert (S : forall gs, flat_map flatten (map OGate gs) = map OGate gs) by (induction gs as [|g gs IHg]; [reflexivity|simpl; rewrite IHg; reflexivity]).
  rewrite S. cbn [call foldM]. destruct (param_value p vals); [|reflexivity]. cbn [bind]. destruct (foldM _ _ (Some st)); reflexivity.
Qed.
