(** * C119: sampled frequencies estimate the probabilities of outcomes.

    The vocabulary is in Spec.v, GateSpec.v, SampleSpec.v, ShotsSpec.v, PhysSpec.v, HeisSpec.v and FreqSpec.v.  The theorem is followed by an example that meets
    its hypotheses. *)
From Coq Require Import String List Arith Bool ZArith Reals Lia Lra.
From Verif Require Import Cplx Py Ndarray OperatorUtils ApplyOperator Sparse Matrices Noise Gates Apply Composite Conversion Shots Gpsr Api
  Spec GateSpec PropSpec NoiseSpec SampleSpec ShotsSpec ExpectSpec GpsrSpec StructSpec PhysSpec HeisSpec FreqSpec StructThm3 SampleThm ShotsThm2 ExpectThm2 PhysThm PauliThm FreqThm Examples.
Import ListNotations.
Local Open Scope nat_scope.

(** for every event: the mean of its frequency is its probability, impossible events do not occur, and with independent draws the frequency is
    rarely far from the probability *)
Theorem C119_frequencies_estimate_probabilities : forall w n vals c gs st k, set_order (set_iter w) -> runnable n vals c gs -> state_of n st -> physical n st -> 1 <= n -> (1 <= k)%Z ->
    exists out counts, run w c st vals = Ok (Some out) /\ is_distribution (map (outcome_probability out) (bitstrings n)) /\
      forall Om, fair_sampling Om 0 (map (outcome_probability out) (bitstrings n)) (Z.to_nat k) ->
        Forall (fun qc => fst (sample (with_choice w (snd qc)) st c vals k) = Ok (counts (snd qc))) Om /\
        forall ev, let p := event_probability n ev out in let f ch := frequency ev (counts ch) in
          expected Om f = p /\ (p = 0%R -> Forall (fun qc => (0 < fst qc)%R -> f (snd qc) = 0%R) Om) /\
          (independent_draws Om 0 (map (outcome_probability out) (bitstrings n)) (Z.to_nat k) ->
             expected Om (fun ch => (f ch - p) * (f ch - p))%R = (p * (1 - p) / IZR k)%R /\
             forall eps, (0 < eps)%R -> (off_by Om f p eps <= 1 / (4 * IZR k * (eps * eps)))%R).
Proof. exact c119_frequencies. Qed.
Print Assumptions C119_frequencies_estimate_probabilities.
(** a Bell pair with a noisy CNOT, 100 shots; the event that both bits are equal *)
Definition fq_gates : list gate := [plain gH 0; gX (TInt 1) (IInt 0) (Some [mkNoise BITFLIP (PFloat (1 / 8))]) false].
Example fq_run : runnable 2 [] (OpSequence (map OGate fq_gates)) fq_gates.
Proof.
  split; [apply sequence_gates|split; [discriminate|split; [|split; [repeat constructor|]]]].
  - apply Forall_cons; [do 3 eexists; split; [eapply gm_fixed; simpl; eauto 10|apply cq_default|reflexivity|apply valid_one; lia]|].
    apply Forall_cons; [do 3 eexists; split; [eapply gm_fixed; simpl; eauto 10|apply (cq_ints [0])|reflexivity|ex_side]|apply Forall_nil].
  - apply Forall_cons; [exact Logic.I|]. apply Forall_cons; [split; [reflexivity|apply Forall_cons; [split; [exact Logic.I|unfold valid_parameter, is_prob; simpl; lra]|apply Forall_nil]]|apply Forall_nil].
Qed.
Example fq_state : state_of 2 (SDense (product_state [0; 0])) /\ physical 2 (SDense (product_state [0; 0])).
Proof. assert (H : In [0; 0] (bitstrings 2)) by (simpl; tauto). destruct (c72_product_thm 2 _ H) as (S & V & W & _). split; [exact S|exact W]. Qed.
Definition equal_bits (x : list nat) : bool := Nat.eqb (nth 0 x 0) (nth 1 x 0).
Example C119_example : exists out counts Om, run ex_world (OpSequence (map OGate fq_gates)) (SDense (product_state [0; 0])) [] = Ok (Some out) /\
    fair_sampling Om 0 (map (outcome_probability out) (bitstrings 2)) 100 /\ independent_draws Om 0 (map (outcome_probability out) (bitstrings 2)) 100 /\
    Forall (fun qc => fst (sample (with_choice ex_world (snd qc)) (SDense (product_state [0; 0])) (OpSequence (map OGate fq_gates)) [] 100) = Ok (counts (snd qc))) Om /\
    expected Om (fun ch => frequency equal_bits (counts ch)) = event_probability 2 equal_bits out /\
    (off_by Om (fun ch => frequency equal_bits (counts ch)) (event_probability 2 equal_bits out) (1 / 5) <= 1 / 16)%R.
Proof.
  destruct fq_state as [S P].
  destruct (C119_frequencies_estimate_probabilities ex_world 2 [] _ fq_gates _ 100%Z ex_world_order fq_run S P) as (out & counts & E & D & H); [lia|lia|].
  destruct (fair_draws_exist 0 _ 100 D) as (Om & FS & ID). exists out, counts, Om. destruct (H Om FS) as [HS HE]. destruct (HE equal_bits) as (M & _ & V).
  destruct (V ID) as [_ B]. split; [exact E|split; [exact FS|split; [exact ID|split; [exact HS|split; [exact M|]]]]]. eapply Rle_trans; [apply B; lra|]. lra.
Qed.
