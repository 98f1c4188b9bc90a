(** * Pytrees and sparse/dense conversion: model of the [tree_flatten]/[tree_unflatten] methods and of
    /repo/horqrux/utils/conversion.py.  No proofs in this file. *)
From Coq Require Import List String Arith Bool Reals.
From Verif Require Import Cplx Py Ndarray OperatorUtils Sparse Noise Gates Apply Composite.
Import ListNotations.
Local Open Scope nat_scope.

(** The auxiliary data of a gate: primitive.py:66-71 for Primitive (and, by inheritance,
    _HamiltonianEvolution): (generator_name, target[0], control[0], noise, sparse);
    parametric.py:57-70 for Parametric and _PHASE: the same followed by (param, shift). *)
Record base_aux : Type := mkAux {
  ax_name : string; ax_target : list nat; ax_control : cspec;
  ax_noise : option (list noise_inst); ax_sparse : bool }.
(** primitive.py:66-71, parametric.py:57-70: the auxiliary data of the two classes *)
Inductive gate_aux : Type :=
| AuxPrim (b : base_aux)
| AuxParam (b : base_aux) (p : param) (s : R).

(** primitive.py:66-71 *)
Definition base_aux_of (g : gate) : base_aux :=
  mkAux (generator_name g) (target g) (control g) (noise g) (sparse g).
(** primitive.py:66-71, parametric.py:57-70 [tree_flatten] *)
Definition gate_flatten (g : gate) : gate_aux :=
  match gclass g with
  | KPrim | KHam => AuxPrim (base_aux_of g)
  | KParam | KPhase => AuxParam (base_aux_of g) (gparam g) (shift g)
  end.

(** [__post_init__] applied to a stored element: [None] stays None, a tuple stays that tuple *)
Definition reparse_control (c : cspec) : index_arg :=
  match c with CNone => INone | CTup l => ITup l end.

(** [cls(...)] with the auxiliary data: primitive.py:73-75, parametric.py:72-74; the default values are
    param = "", shift = 0.0.  Too many arguments for the class raise TypeError (Primitive with
    seven arguments); a seven-argument _HamiltonianEvolution does not occur. *)
Definition gate_unflatten (k : gate_class) (aux : gate_aux) : res gate :=
  match aux with
  | AuxPrim b =>
      Ok (mkGate k (ax_name b) (parse_target (TTup (ax_target b))) (parse_control (reparse_control (ax_control b)))
                 (ax_noise b) (ax_sparse b) (PName "") 0)
  | AuxParam b p s =>
      match k with
      | KParam | KPhase =>
          Ok (mkGate k (ax_name b) (parse_target (TTup (ax_target b))) (parse_control (reparse_control (ax_control b)))
                     (ax_noise b) (ax_sparse b) p s)
      | _ => Err TypeError
      end
  end.

(** [type(g).tree_unflatten applied to the flattened data] *)
Definition gate_roundtrip (g : gate) : res gate := gate_unflatten (gclass g) (gate_flatten g).

(** circuit.py:52-62: QuantumCircuit.tree_flatten returns the pair (aux_data, children) = ((n_qubits,), (operations,
    fparams)), in this order; tree_unflatten(aux_data, children) calls [cls] on aux_data followed by children.
    The arguments of the constructor are Python objects of which we distinguish an int, a list of operations and
    a list of strings; the constructor (circuit.py:28-32) converts its second argument to a list, which
    raises TypeError for an int. *)
Inductive pyobj : Type := PyInt (n : nat) | PyOps (l : list oper) | PyStrs (l : list string).
(** circuit.py:27-32: a QuantumCircuit with arbitrary fields *)
Record py_circuit : Type := mkPyCircuit { pc_n_qubits : pyobj; pc_operations : pyobj; pc_fparams : pyobj }.
(** circuit.py:27-32 [QuantumCircuit.__init__] *)
Definition qc_init (args : list pyobj) : res py_circuit :=
  match args with
  | [_; PyInt _; _] => Err TypeError
  | [n; ops; fp] => Ok (mkPyCircuit n ops fp)
  | _ => Err TypeError
  end.
(** circuit.py:52-58 [tree_flatten] *)
Definition qc_flatten (n : nat) (l : list oper) (fp : list string) : list pyobj * list pyobj :=
  ([PyInt n], [PyOps l; PyStrs fp]).
(** circuit.py:60-62 [tree_unflatten] *)
Definition qc_unflatten (aux_data children : list pyobj) : res py_circuit := qc_init (aux_data ++ children).
(** JAX takes the first component returned by tree_flatten for the children and the second for the auxiliary
    data (jax.tree_util.register_pytree_node_class) *)
Definition qc_roundtrip (n : nat) (l : list oper) (fp : list string) : res py_circuit :=
  let '(children, aux_data) := qc_flatten n l fp in qc_unflatten aux_data children.

(** sequence.py:19-26, compose.py:37-44 and 79-86: the composites except QuantumCircuit have their
    operations (a list, itself a pytree) as only child; rebuilding calls the constructor with the
    list of rebuilt operations. *)
(** the round trip of an operation without QuantumCircuit inside *)
Fixpoint oper_roundtrip (o : oper) : res oper :=
  match o with
  | OGate g => let! g := gate_roundtrip g in Ok (OGate g)
  | OSeq l => let! l := mapM oper_roundtrip l in Ok (OpSequence l)
  | OScale l p => let! l := mapM oper_roundtrip l in Ok (Scale (AList l) p)
  | OAdd l => let! l := mapM oper_roundtrip l in Ok (Add (AList l))
  | OObs l => let! l := mapM oper_roundtrip l in Ok (Observable (AList l))
  | OQC _ _ _ => Err TypeError (* not an operation any more, see [qc_roundtrip] *)
  end.

(** operator_utils.py:37-45: DensityMatrix; its array is auxiliary data *)
Definition dm_flatten (s : state) : option arr := match s with SDM a => Some a | _ => None end.
(** operator_utils.py:44-45 [DensityMatrix.tree_unflatten] *)
Definition dm_unflatten (a : arr) : state := SDM a.
(** noise.py:49-58: DigitalNoiseInstance *)
Definition noise_flatten (n : noise_inst) : noise_type * prob := (ntype n, error_probability n).
(** noise.py:56-58 [DigitalNoiseInstance.tree_unflatten] *)
Definition noise_unflatten (a : noise_type * prob) : noise_inst := mkNoise (fst a) (snd a).

(** conversion.py:40-43, 46-49, 52-55, 58-61: [aux_data[:-1] + (b,)] for Primitive (and
    _HamiltonianEvolution), [aux_data[:-3] + (b,) + aux_data[-2:]] for Parametric (and _PHASE) *)
Definition set_ax_sparse (b : bool) (a : base_aux) : base_aux :=
  mkAux (ax_name a) (ax_target a) (ax_control a) (ax_noise a) b.
(** conversion.py:40-43, 46-49, 52-55, 58-61 *)
Definition gate_convert (b : bool) (g : gate) : res gate :=
  gate_unflatten (gclass g)
    match gate_flatten g with
    | AuxPrim a => AuxPrim (set_ax_sparse b a)
    | AuxParam a p s => AuxParam (set_ax_sparse b a) p s
    end.

(** conversion.py:64-91: [to_sparse] ([b = true]) and [to_dense] ([b = false]) *)
Fixpoint convert (b : bool) (o : oper) : res oper :=
  match o with
  | OGate g => let! g := gate_convert b g in Ok (OGate g)
  | OSeq l => let! l := mapM (convert b) l in Ok (OpSequence l)
  | OAdd l => let! l := mapM (convert b) l in Ok (Add (AList l))
  | OObs l => let! l := mapM (convert b) l in Ok (Observable (AList l))
  | OScale l p =>
      match l with
      | [] => Err IndexError
      | o0 :: _ => let! o0 := convert b o0 in Ok (Scale (AOp o0) p)
      end
  | OQC n l _ => let! l := mapM (convert b) l in Ok (QuantumCircuit n (AList l) [])
  end.
(** conversion.py:16-21, 40-43, 52-55, 64-67, 74-77, 84-87 [to_sparse] *)
Definition to_sparse : oper -> res oper := convert true.
(** conversion.py:23-28, 46-49, 58-61, 69-72, 79-82, 89-91 [to_dense] *)
Definition to_dense : oper -> res oper := convert false.
