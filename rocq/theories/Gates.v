(** * Model of /repo/horqrux/primitives/primitive.py, /repo/horqrux/primitives/parametric.py and
    /repo/horqrux/analog.py.  No proofs in this file. *)
From Coq Require Import List String Arith Bool Reals.
From Verif Require Import Cplx Py Ndarray OperatorUtils Sparse Matrices Noise.
Import ListNotations.
Local Open Scope nat_scope.

(** What the code gets from outside: the iteration order of a Python [set] (given the sequence of
    insertions), [jax.scipy.linalg.expm], [jnp.linalg.eigh] (eigenvalues, matrix of eigenvectors),
    [jnp.linalg.inv], and the indices drawn by [jax.random.choice] from a probability vector
    ([choice key p n]).  No property of these is assumed here. *)
Record world : Type := mkWorld {
  set_iter : list nat -> list nat;
  expm : arr -> arr;
  eigh : arr -> list R * arr;
  inv_mat : arr -> arr;
  choice : nat -> list R -> nat -> list nat
}.

(** A parameter dictionary.  Values are numbers, matrices (the "hamiltonian" of analog.py) or nested
    dictionaries (values_utils.py).  A dictionary is an association list; the first entry of a key counts. *)
Inductive pyval : Type :=
| VNum (x : R)
| VMat (a : arr)
| VDict (d : list (string * pyval)).
(** the argument [values: dict[str, float]] *)
Definition values : Type := list (string * pyval).

(** [values[k]] *)
Fixpoint lookup {V : Type} (d : list (string * V)) (k : string) : res V :=
  match d with
  | [] => Err KeyError
  | (k', v) :: d' => if String.eqb k k' then Ok v else lookup d' k
  end.

(** [values[k] = v] *)
Fixpoint dict_set {V : Type} (d : list (string * V)) (k : string) (v : V) : list (string * V) :=
  match d with
  | [] => [(k, v)]
  | (k', v') :: d' => if String.eqb k k' then (k', v) :: d' else (k', v') :: dict_set d' k v
  end.

(** arithmetic on a value: numbers only; array-valued (batched) angles are not modelled *)
Definition num (v : pyval) : res R := match v with VNum x => Ok x | _ => Err TypeError end.

(** [param: str | float] *)
Inductive param : Type := PName (s : string) | PNum (x : R).

(** the class of a gate: Primitive, Parametric, _PHASE, _HamiltonianEvolution *)
Inductive gate_class : Type := KPrim | KParam | KPhase | KHam.

(** primitive.py:26-36, parametric.py:32-43, analog.py:12-23.  [target] is [self.target[0]] and
    [control] is [self.control[0]]; [param] is meaningful for KParam/KPhase only, [shift] also for
    KHam.  Target entries may be int or np.int64, which no code path distinguishes. *)
Record gate : Type := mkGate {
  gclass : gate_class;
  generator_name : string;
  target : list nat;
  control : cspec;
  noise : option (list noise_inst);
  sparse : bool;
  gparam : param;
  shift : R
}.

(** The index arguments a user may pass: an int, an np.int64, a tuple, or None. *)
Inductive index_arg : Type := IInt (n : nat) | INp (n : nat) | ITup (l : list qidx) | INone.

(** primitive.py:38-54 [parse_idx] and [__post_init__] for the control argument *)
Definition parse_control (i : index_arg) : cspec :=
  match i with
  | IInt n => CTup [QInt n]
  | INp n => CTup [QNp n]
  | ITup l => CTup l
  | INone => CNone
  end.
(** primitive.py:38-50 for the target argument (a tuple of integers, or an integer) *)
Inductive target_arg : Type := TInt (n : nat) | TTup (l : list nat).
(** primitive.py:38-50 [parse_idx] of the target *)
Definition parse_target (i : target_arg) : list nat :=
  match i with TInt n => [n] | TTup l => l end.

(** primitive.py:26-54: Primitive(generator_name, target, control, noise, sparse) *)
Definition Primitive (name : string) (t : target_arg) (c : index_arg)
  (ns : option (list noise_inst)) (sp : bool) : gate :=
  mkGate KPrim name (parse_target t) (parse_control c) ns sp (PName "") 0.

(** primitive.py:162-383: the constructors I, X, NOT, Y, Z, H, S, T, SWAP, ... *)
Definition gI := Primitive "I".
(** primitive.py:185-208 [X] *)
Definition gX := Primitive "X".
(** primitive.py:211 [NOT] *)
Definition NOT := gX.
(** primitive.py:214-235 [Y] *)
Definition gY := Primitive "Y".
(** primitive.py:238-259 [Z] *)
Definition gZ := Primitive "Z".
(** primitive.py:262-282 [H] *)
Definition gH := Primitive "H".
(** primitive.py:285-305 [S] *)
Definition gS := Primitive "S".
(** primitive.py:308-331 [T] *)
Definition gT := Primitive "T".
(** primitive.py:334-356 [SWAP] *)
Definition SWAP := Primitive "SWAP".
(** primitive.py:359-365 [SQRTSWAP] *)
Definition SQRTSWAP := Primitive "SQSWAP".
(** primitive.py:368-374 [ISWAP] *)
Definition ISWAP := Primitive "ISWAP".
(** primitive.py:377-383 [ISQRTSWAP] *)
Definition ISQRTSWAP := Primitive "ISQSWAP".

(** parametric.py:32-55: Parametric(...) *)
Definition Parametric (name : string) (p : param) (t : target_arg) (c : index_arg)
  (ns : option (list noise_inst)) (sp : bool) : gate :=
  mkGate KParam name (parse_target t) (parse_control c) ns sp p 0.
(** parametric.py:138-198 *)
Definition RX := Parametric "X".
(** parametric.py:159-177 [RY] *)
Definition RY := Parametric "Y".
(** parametric.py:180-198 [RZ] *)
Definition RZ := Parametric "Z".
(** parametric.py:222-241 *)
Definition PHASE (p : param) (t : target_arg) (c : index_arg)
  (ns : option (list noise_inst)) (sp : bool) : gate :=
  mkGate KPhase "I" (parse_target t) (parse_control c) ns sp p 0.
(** analog.py:34-37 *)
Definition HamiltonianEvolution (t : target_arg) (c : index_arg) : gate :=
  mkGate KHam "I" (parse_target t) (parse_control c) None false (PName "") 0.

(** the default control argument [(None,)] *)
Definition no_control : index_arg := ITup [QNone].

(** parametric.py:48-55 [parse_values] *)
Definition parse_values (g : gate) (vals : values) : res R :=
  match gparam g with
  | PName s => let! v := lookup vals s in let! x := num v in Ok (x + shift g)%R
  | PNum x => Ok (x + shift g)%R
  end.

(** A matrix returned by [_unitary], [dagger] or [jacobian]: dense or sparse *)
Inductive mat : Type := MD (a : arr) | MS (b : bcoo).

(** primitive.py:77-83 [generator] *)
Definition generator (g : gate) : res mat :=
  let! m := operations_dict (generator_name g) in
  Ok (if sparse g then MS (fromdense m) else MD m).

(** parametric.py:202-207: [eye(2).at[1,1].set(exp(1j * theta))] *)
Definition phase_matrix (theta : R) : arr := set_at (eye 2) [1; 1] (Cexpi theta).
(** parametric.py:209-214 *)
Definition phase_jacobian (theta : R) : arr := set_at (zeros [2; 2]) [1; 1] (Cmul Ci (Cexpi theta)).

(** parametric.py:205-206, 212-213: [BCOO.fromdense] when the gate is sparse *)
Definition maybe_sparse (sp : bool) (a : arr) : mat := if sp then MS (fromdense a) else MD a.

(** [_unitary]: primitive.py:85-94, parametric.py:76-77 and 202-207, analog.py:28-31 *)
Definition unitary_of (w : world) (g : gate) (vals : values) : res mat :=
  match gclass g with
  | KPrim => generator g
  | KParam =>
      let! m := generator g in
      let! theta := parse_values g vals in
      match m with
      | MD a => let! u := unitary_of_generator a theta in Ok (MD u)
      | MS b => let! u := b_unitary b theta in Ok (MS u)
      end
  | KPhase =>
      let! theta := parse_values g vals in
      Ok (maybe_sparse (sparse g) (phase_matrix theta))
  | KHam =>
      let! t := lookup vals "time_evolution" in
      let! t := num t in
      let! h := lookup vals "hamiltonian" in
      match h with
      | VMat a => Ok (MD (expm w (map_arr (fun z => Cmul z (Cmul (Copp Ci) (RtoC (t + shift g)))) a)))
      | _ => Err TypeError
      end
  end.

(** [_dagger] on either kind of matrix *)
Definition mat_dagger (m : mat) : res mat :=
  match m with
  | MD a => let! d := dagger a in Ok (MD d)
  | MS b => let! d := b_dagger b in Ok (MS d)
  end.

(** primitive.py:96-105 [dagger] *)
Definition dagger_of (w : world) (g : gate) (vals : values) : res mat :=
  let! u := unitary_of w g vals in mat_dagger u.

(** [jacobian]: parametric.py:79-80 and 209-214; the other classes have no such attribute *)
Definition jacobian_of (w : world) (g : gate) (vals : values) : res mat :=
  match gclass g with
  | KParam =>
      let! m := generator g in
      let! theta := parse_values g vals in
      match m with
      | MD a => let! u := jacobian_of_generator a theta in Ok (MD u)
      | MS b => let! u := b_jacobian b theta in Ok (MS u)
      end
  | KPhase =>
      let! theta := parse_values g vals in
      Ok (maybe_sparse (sparse g) (phase_jacobian theta))
  | _ => Err AttributeError
  end.

(** operator_utils.py:107-110 *)
Inductive op_type : Type := UNITARY | DAGGER | JACOBIAN.
(** apply.py:372 and 377: [getattr(gate, op_type)(values)] *)
Definition operator_of (w : world) (ot : op_type) (g : gate) (vals : values) : res mat :=
  match ot with
  | UNITARY => unitary_of w g vals
  | DAGGER => dagger_of w g vals
  | JACOBIAN => jacobian_of w g vals
  end.

(** primitive.py:140-152 [qubit_support] *)
Definition gate_support (g : gate) : res (list nat) :=
  if is_controlled (control g)
  then let! cs := axes_of (control g) in Ok (sorted (dedup (target g ++ cs)))
  else Ok (sorted (dedup (target g))).

(** primitive.py:133-138 [n_qubits]: [self.target] and [self.control] are one-element tuples *)
Definition n_qubits (g : gate) : nat :=
  1 + match control g with CNone => 0 | CTup _ => 1 end.

(** primitive.py:154-156, parametric.py:133-135 [is_parametric] *)
Definition is_parametric (g : gate) : bool :=
  match gclass g with
  | KParam | KPhase => match gparam g with PName _ => true | PNum _ => false end
  | _ => false
  end.

(** primitive.py:107-127 [tensor] as a dense array.  The tensor of a sparse gate is a BCOO array (SparseTensor.v): the
    functions that use the result of this definition (tensordot, eigh) accept no BCOO, Err TypeError. *)
Definition gate_tensor (w : world) (g : gate) (vals : values) (full_support : option (list nat)) : res arr :=
  let! m := unitary_of w g vals in
  match m with
  | MS _ => Err TypeError
  | MD u =>
      let! u := if is_controlled (control g) then controlled u (target g) (control g) else Ok u in
      match full_support with
      | None => Ok u
      | Some fs => let! sup := gate_support g in expand_operator u sup fs
      end
  end.

(** parametric.py:93-116 [eigenvals_generator], dense.  [eigvalsh] of the Pauli matrices and of the identity is
    tabulated (other generator names do not occur in a parametric gate of the library);
    [len(self.control)] is 1 whatever the number of control qubits. *)
Definition eigenvals_generator (g : gate) : res (list R) :=
  let! e :=
    if String.eqb (generator_name g) "X" || String.eqb (generator_name g) "Y" || String.eqb (generator_name g) "Z"
    then Ok [(-1)%R; 1%R]
    else if String.eqb (generator_name g) "I" then Ok [1%R; 1%R] else Err NotImplementedError in
  Ok (if is_controlled (control g) then repeat 0%R (2 ^ 1) ++ e else e).

(** [jnp.unique(l, size=2)]: the two smallest distinct values in increasing order, padded with the
    smallest one *)
Definition rmin (l : list R) (d : R) : R := fold_left Rmin l d.
(** [jnp.unique(l, size=2)]: parametric.py:130 *)
Definition unique2 (l : list R) : res (R * R) :=
  match l with
  | [] => Err ValueError
  | x :: l' =>
      let m := rmin l' x in
      match filter (fun y => if Req_EM_T y m then false else true) l with
      | [] => Ok (m, m)
      | y :: r => Ok (m, rmin r y)
      end
  end.
(** parametric.py:118-131 [spectral_gap]: [|tril(s - s.T)|] contains |s_j - s_i| for j <= i and zeros
    above the diagonal; the first nonzero of the two values, or the first if both are zero *)
Definition spectral_gap (g : gate) : res R :=
  let! s := eigenvals_generator g in
  let n := List.length s in
  let diffs := flat_map (fun i => map (fun j => if Nat.leb j i then Rabs (nth j s 0%R - nth i s 0%R) else 0%R) (seq 0 n))
                        (seq 0 n) in
  let! u := unique2 diffs in
  Ok (if Req_EM_T (fst u) 0 then (if Req_EM_T (snd u) 0 then fst u else snd u) else fst u).
