(** * What the gate constructors return acts as the documented gate *)
From Coq Require Import String List Arith Bool Reals Lia Lra ZArith Permutation.
From Verif Require Import Cplx Py PyFacts Ndarray NdFacts OperatorUtils ApplyOperator Sparse Matrices Noise Gates Apply Composite Conversion Shots Gpsr Api
  Spec SpecFacts GateSpec PropSpec NoiseSpec SampleSpec ExpectSpec GpsrSpec GateFacts CircuitFacts AlgebraFacts ApplyThm GateThm
  KrausThm NoiseThm NoiseThm2 SeqThm SampleThm ShotsSpec ShotsThm ExpectThm ExpectThm2 GpsrFacts GpsrThm StructSpec PhysSpec PhysThm CtorSpec.
Import ListNotations.
Local Open Scope nat_scope.

Lemma controls_parse : forall c cs, controls c cs -> control_qubits (parse_control c) cs.
Proof. intros c cs H; destruct H; [exact (cq_ints [q])|exact (cq_ints l)|exact cq_default|exact cq_none]. Qed.
Lemma targets_parse : forall t ts, targets t ts -> parse_target t = ts.
Proof. intros t ts H; destruct H; reflexivity. Qed.
Lemma angle_parse : forall vals p a g, angle_is vals p a -> gparam g = p -> shift g = 0%R -> angle vals g a.
Proof. intros vals p a g H E S. unfold angle. rewrite E, S. destruct H; [ring|]. exists x; split; [assumption|ring]. Qed.
Lemma built_on : forall n vals t c ns k g M ts cs, built vals t c ns k g M -> targets t ts -> controls c cs -> length ts = k -> valid_qubits n (cs ++ ts) ->
    gate_on n vals g M cs ts /\ dense_gate g /\ noise g = ns.
Proof.
  intros n vals t c ns k g M ts cs B HT HC L V. apply controls_parse in HC. apply targets_parse in HT.
  split; [|destruct B; split; reflexivity].
  destruct B; (split; [|exact HC|exact HT|exact V]);
    first [eapply gm_SWAP; cbn; congruence
          |eapply gm_fixed; [reflexivity|reflexivity|cbn; congruence|simpl; eauto 10]
          |eapply gm_rotation; [reflexivity|reflexivity|cbn; congruence|eapply angle_parse; [eassumption|reflexivity|reflexivity]|simpl; eauto 10]
          |eapply gm_PHASE; [reflexivity|cbn; congruence|eapply angle_parse; [eassumption|reflexivity|reflexivity]]].
Qed.
Lemma c112_constructors : forall w n vals t c ns k g M ts cs st, set_order (set_iter w) -> built vals t c ns k g M ->
    targets t ts -> controls c cs -> length ts = k -> valid_qubits n (cs ++ ts) -> noise_argument k ns -> state_of n st ->
    exists out, run w (OpSequence [OGate g]) st vals = Ok (Some out) /\ state_of n out /\
      match ns with
      | None => keq n (density_of out) (sandwiched n (gate_op M cs ts) (density_of st)) /\
                (forall psi, st = SDense psi -> exists phi, out = SDense phi /\ veq n (amp phi) (apply_kernel n (gate_op M cs ts) (amp psi)))
      | Some l => exists q a r, ts = [q] /\ through n q l (sandwiched n (gate_op M cs ts) (density_of st)) r /\ out = SDM a /\ keq n (rho_entry a) r
      end.
Proof.
  intros w n vals t c ns k g M ts cs st SO B HT HC L V NA HS. destruct (built_on n vals t c ns k g M ts cs B HT HC L V) as (HG & HD & HN).
  assert (NO : noise_ok g). { unfold noise_ok. rewrite HN. destruct ns as [l|]; [|exact Logic.I]. destruct NA as [-> F]. split; [rewrite (go_target _ _ _ _ _ _ HG); exact L|exact F]. }
  assert (SQ : sequence_of (OpSequence [OGate g]) [g]) by (apply (so_seq [OGate g] [[g]]); repeat constructor).
  assert (RN : runnable n vals (OpSequence [OGate g]) [g]).
  { split; [exact SQ|split; [discriminate|split; [|split]]]; (apply Forall_cons; [|apply Forall_nil]); [exists M, cs, ts; exact HG|exact HD|exact NO]. }
  destruct (output_spec w n vals _ [g] st SO RN HS) as (out & E & _ & _ & So & KO & MX & _). exists out. split; [exact E|split; [exact So|]].
  destruct RN as (_ & _ & FU & _ & FN). pose proof (evolve_run n vals [g] FU FN (density_of st)) as NR.
  assert (UQ : forall M' cs' ts', gate_on n vals g M' cs' ts' -> M' = M /\ cs' = cs /\ ts' = ts).
  { intros M' cs' ts' [A1 A2 A3 _]. destruct HG as [B1 B2 B3 _]. split; [|split; [|congruence]].
    - rewrite <- (mat_of_spec _ _ _ A1); apply mat_of_spec; exact B1.
    - rewrite <- (ctrl_of_spec _ _ A2); apply ctrl_of_spec; exact B2. }
  remember (evolve n vals [g] (density_of st)) as e eqn:Ee. clear Ee. assert (NIL : forall r r', noisy_run n vals [] r r' -> r = r') by (clear; intros r r' H; inversion H; reflexivity).
  destruct ns as [l|].
  - destruct MX as (a & ->); [right; exists g; split; [left; reflexivity|congruence]|].
    inversion NR as [|? ? ? ? ? ? ? ? N0|? ? M' cs' q l' ? r1 ? G' N' T' R']; subst; [congruence|]. destruct (UQ _ _ _ G') as (-> & -> & <-). rewrite HN in N'; injection N' as <-.
    rewrite (NIL _ _ R') in T'. exists q, a, e. split; [reflexivity|split; [exact T'|split; [reflexivity|exact KO]]].
  - split.
    + inversion NR as [|? ? M' cs' ts' ? ? G' _ R'|? ? ? ? ? ? ? ? ? ? N0]; subst; [|congruence]. destruct (UQ _ _ _ G') as (-> & -> & ->).
      rewrite <- (NIL _ _ R') in KO. exact KO.
    + intros psi ->. assert (CO : circuit_on n vals [g] (kmul n kid (gate_op M cs ts))) by (econstructor; [exact HG|constructor]).
      destruct (call_pure w n vals _ [g] _ psi SQ (Forall_cons _ HD (Forall_nil _)) (Forall_cons g HN (Forall_nil _)) CO HS) as (phi & Ep & _ & Vp).
      rewrite E in Ep; injection Ep as ->. exists phi. split; [reflexivity|]. rewrite Vp. apply apply_kernel_ext; [apply kmul_id_l|apply veq_refl].
Qed.
