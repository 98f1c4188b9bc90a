(** * C114: parameter names are only names.

    The vocabulary is in NameSpec.v and ExpectSpec.v ([flat_values]). *)
From Coq Require Import String List Arith Bool ZArith Reals Lia Lra.
From Verif Require Import Cplx Py Ndarray OperatorUtils ApplyOperator Sparse Matrices Noise Gates Apply Composite Conversion Shots Gpsr Api
  Spec GateSpec PropSpec ExpectSpec SampleSpec NameSpec NameThm Examples.
Import ListNotations.
Local Open Scope nat_scope.

(** The same circuit with its angles written differently (as numbers, or under other names) and other entries in the dictionary of values:
    every function returns the same result or raises the same exception. *)
Theorem C114_parameter_names_are_only_names : forall w vals vals' c c', same_operation vals vals' c c' ->
    (forall st, run w c st vals = run w c' st vals') /\
    (forall st k, sample w st c vals k = sample w st c' vals' k) /\
    (forall full_support, tensor w vals c full_support = tensor w vals' c' full_support) /\
    (forall st obs obs' mode shots key, flat_values vals -> flat_values vals' -> Forall2 (Forall2 (same_operation vals vals')) obs obs' ->
       expectation w st c obs vals mode shots key = expectation w st c' obs' vals' mode shots key).
Proof. exact c114_names. Qed.
Print Assumptions C114_parameter_names_are_only_names.
(** RX(a) controlled, then a noisy RZ(b), with a Hamiltonian scaled by c; against RX(1/2), RZ(x) and the scale x *)
Definition ex_name_vals : values := [("a", VNum (1 / 2)); ("b", VNum 2); ("c", VNum 2)]%string.
Definition ex_name_vals' : values := [("x", VNum 2); ("unused", VNum 7)]%string.
Definition ex_name_circuit (p q : param) (names : list string) : oper :=
  OQC 2 [OGate (gH (TInt 0) no_control None false); OSeq [OGate (RX p (TInt 1) (IInt 0) None false); OGate (RZ q (TInt 0) no_control (Some [mkNoise BITFLIP (PFloat (1 / 4))]) false)]] names.
Definition ex_name_obs (p : param) : list oper := [OScale [OGate (gZ (TInt 1) no_control None false)] p; OGate (gX (TInt 0) no_control None false)].
Example C114_example : forall w st mode shots key,
    expectation w st (ex_name_circuit (PName "a") (PName "b") ["a"; "b"]%string) [ex_name_obs (PName "c")] ex_name_vals mode shots key =
    expectation w st (ex_name_circuit (PNum (1 / 2)) (PName "x") []) [ex_name_obs (PName "x")] ex_name_vals' mode shots key.
Proof.
  intros w st mode shots key.
  assert (R : forall p p' t c ns sp, same_number ex_name_vals ex_name_vals' p p' -> same_gate ex_name_vals ex_name_vals' (RX p t c ns sp) (RX p' t c ns sp) /\ same_gate ex_name_vals ex_name_vals' (RZ p t c ns sp) (RZ p' t c ns sp)).
  { intros p p' t c ns sp N. split; apply sg_rotation; simpl; tauto. }
  assert (A : same_number ex_name_vals ex_name_vals' (PName "a") (PNum (1 / 2))) by (exists (1 / 2)%R; split; [apply sf_name; reflexivity|apply sf_number]).
  assert (B : forall s, s = "b"%string \/ s = "c"%string -> same_number ex_name_vals ex_name_vals' (PName s) (PName "x")) by (intros s [-> | ->]; exists 2%R; split; apply sf_name; reflexivity).
  refine (proj2 (proj2 (proj2 (C114_parameter_names_are_only_names w ex_name_vals ex_name_vals' _ _ _))) st _ _ mode shots key (or_introl eq_refl) (or_introl eq_refl) _).
  - apply so_circuit. repeat apply Forall2_cons; try apply Forall2_nil; [apply so_gates, sg_fixed|]. apply so_sequence. repeat apply Forall2_cons; try apply Forall2_nil; apply so_gates, R; auto.
  - repeat apply Forall2_cons; try apply Forall2_nil; [|apply so_gates, sg_fixed]. apply so_scale; [|apply B; auto]. repeat apply Forall2_cons; try apply Forall2_nil. apply so_gates, sg_fixed.
Qed.
