(** * Vocabulary for the properties of the parameter-shift gradients.  No proofs in this file. *)
From Coq Require Import String List Arith Bool Reals.
From Verif Require Import Cplx Py Ndarray OperatorUtils Sparse Noise Gates Apply Composite Spec GateSpec PropSpec ExpectSpec.
Import ListNotations.
Local Open Scope nat_scope.

(** the values with [name] set to [t] *)
Definition at_value (vals : values) (name : string) (t : R) : values := dict_set vals name (VNum t).
(** a dictionary of numbers with distinct keys *)
Definition numeric_values (vals : values) : Prop :=
  NoDup (map fst vals) /\ Forall (fun kv => exists x, snd kv = VNum x) vals.

(** the circuit works on density matrices: it is given one, or has a gate with noise *)
Definition mixes (st : state) (gs : list gate) : Prop :=
  (exists a, st = SDM a) \/ (exists g, In g gs /\ noise g <> None).
(** the observable [l] is the operator [K], in a form the code path taken can handle *)
Definition readable (w : world) (n : nat) (vals : values) (st : state) (gs : list gate) (l : list oper) (K : op) : Prop :=
  (exists sq, observable_on w n vals sq l K) /\ (mixes st gs -> density_ready w n vals l K).

(** RX, RY, RZ without control *)
Definition plain_rotation (g : gate) : Prop :=
  gclass g = KParam /\ In (generator_name g) ["X"; "Y"; "Z"]%string /\ control_qubits (control g) [].
(** [name] is used by uncontrolled rotations only *)
Definition rotation_only (gs : list gate) (name : string) : Prop :=
  forall g, In g gs -> In name (names_of_gate g) -> plain_rotation g.
(** PHASE without control; [name] is used by uncontrolled rotations and PHASE gates only *)
Definition plain_phase (g : gate) : Prop := gclass g = KPhase /\ control_qubits (control g) [].
Definition phase_or_rotation_only (gs : list gate) (name : string) : Prop :=
  forall g, In g gs -> In name (names_of_gate g) -> plain_rotation g \/ plain_phase g.
(** the density matrix [r] has no coherence between the basis states in which all the control qubits [cs] are 1 and the others *)
Definition control_incoherent (n : nat) (cs : list nat) (r : op) : Prop :=
  forall x y, In x (bitstrings n) -> In y (bitstrings n) -> all_ones (bits_at x cs) <> all_ones (bits_at y cs) -> r x y = C0.
(** no name is used by two gates *)
Definition used_once (gs : list gate) : Prop := NoDup (flat_map names_of_gate gs).

(** [gradient_at F vals name d]: the function [F] of the values returns a vector, whose derivative with respect to the value
    of [name] is [d] *)
Definition gradient_at (F : values -> res (list R)) (vals : values) (name : string) (d : list R) : Prop :=
  exists (f : R -> list R) x, lookup vals name = Ok (VNum x) /\
    (forall t, F (at_value vals name t) = Ok (f t) /\ List.length (f t) = List.length d) /\
    forall i, i < List.length d -> derivable_pt_lim (fun t => nth i (f t) 0%R) x (nth i d 0%R).

(** sum of a vector; sum over the parameters of gradient times tangent, for each of [m] observables *)
Definition total (d : list R) : R := rsum d (fun x => x).
Definition directional (m : nat) (grads : list (list R)) (tangents : list R) : list R :=
  map (fun i => rsum (combine grads tangents) (fun gt => (nth i (fst gt) 0 * snd gt)%R)) (seq 0 m).
