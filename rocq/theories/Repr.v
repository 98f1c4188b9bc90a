(** * Model of the printed form of gates and of noise: /repo/horqrux/primitives/primitive.py:129-131 and 158-159, parametric.py:82-91 and
    216-219, analog.py:12-26 (generated by [@dataclass]) and noise/noise.py:65-66.  No proofs in this file. *)
From Coq Require Import String List Arith Bool Reals Decimal DecimalString.
From Verif Require Import Cplx Py Ndarray OperatorUtils Sparse Matrices Noise Gates.
Import ListNotations.
Local Open Scope string_scope.

(** What the text depends on and the code does not define: how Python prints a float ([str] and [repr] of a float are the same), and whether NumPy prints
    [np.int64(3)] as "np.int64(3)" (version 2) or as "3" (version 1).  No property of these is assumed here.
    Simplification: parameters, shifts and probabilities are Python floats, target qubits are Python integers. *)
Record printer : Type := mkPrinter { float_text : R -> string; numpy2 : bool }.

(** [repr] of a non-negative integer: decimal digits *)
Definition int_text (n : nat) : string := NilEmpty.string_of_uint (Nat.to_uint n).
(** [repr] of a tuple, given the texts of its elements *)
Definition tuple_text (l : list string) : string :=
  "(" ++ match l with [x] => x ++ "," | _ => String.concat ", " l end ++ ")".
(** [repr] of an index *)
Definition qidx_text (pr : printer) (q : qidx) : string :=
  match q with
  | QInt n => int_text n
  | QNp n => if numpy2 pr then "np.int64(" ++ int_text n ++ ")" else int_text n
  | QNone => "None"
  end.
(** [self.target] is a one-element tuple: [((0, 1),)] *)
Definition target_text (g : gate) : string := tuple_text [tuple_text (map int_text (target g))].
(** [self.control]: [((0,),)], [((None,),)], or [(None,)] when [control=None] was passed (operator_utils.py:407-416) *)
Definition control_text (pr : printer) (g : gate) : string :=
  match control g with
  | CNone => tuple_text ["None"]
  | CTup l => tuple_text [tuple_text (map (qidx_text pr) l)]
  end.
(** [f"{self.param}"]: a name is printed without quotes *)
Definition param_text (pr : printer) (p : param) : string :=
  match p with PName s => s | PNum x => float_text pr x end.

(** primitive.py:129-131, parametric.py:82-85 and 216-219 [name] *)
Definition gate_name (g : gate) : string :=
  let base := match gclass g with
              | KPrim | KHam => generator_name g
              | KParam => "R" ++ generator_name g
              | KPhase => "PHASE"
              end in
  if is_controlled (control g) then "C" ++ base else base.

(** noise.py:22-29: the value of a member of [DigitalNoiseType] *)
Definition noise_name (t : noise_type) : string :=
  match t with
  | BITFLIP => "BitFlip" | PHASEFLIP => "PhaseFlip" | DEPOLARIZING => "Depolarizing" | PAULI_CHANNEL => "PauliChannel"
  | AMPLITUDE_DAMPING => "AmplitudeDamping" | PHASE_DAMPING => "PhaseDamping" | GENERALIZED_AMPLITUDE_DAMPING => "GeneralizedAmplitudeDamping"
  end.
(** noise.py:65-66 [DigitalNoiseInstance.__repr__] *)
Definition noise_text (pr : printer) (n : noise_inst) : string :=
  noise_name (ntype n) ++ "(p=" ++
    match error_probability n with PFloat p => float_text pr p | PTuple l => tuple_text (map (float_text pr) l) end ++ ")".

(** primitive.py:158-159, parametric.py:87-91 [__repr__]; _HamiltonianEvolution (analog.py:12-26) is decorated with [@dataclass], which gives it
    a new [__repr__] listing the fields *)
Definition gate_text (pr : printer) (g : gate) : string :=
  match gclass g with
  | KPrim => gate_name g ++ "(target=" ++ target_text g ++ ", control=" ++ control_text pr g ++ ")"
  | KParam | KPhase =>
      gate_name g ++ "(target=" ++ target_text g ++ ", control=" ++ control_text pr g ++ ", param=" ++ param_text pr (gparam g) ++ ", shift=" ++ float_text pr (shift g) ++ ")"
  | KHam =>
      "_HamiltonianEvolution(generator_name='" ++ generator_name g ++ "', target=" ++ target_text g ++ ", control=" ++ control_text pr g ++ ", noise="
        ++ match noise g with None => "None" | Some l => tuple_text (map (noise_text pr) l) end
        ++ ", sparse=" ++ (if sparse g then "True" else "False") ++ ", shift=" ++ float_text pr (shift g) ++ ")"
  end.
