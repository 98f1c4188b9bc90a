(** * Model of /repo/horqrux/composite/sequence.py, /repo/horqrux/composite/compose.py,
    /repo/horqrux/circuit.py (classes) and /repo/horqrux/differentiation/ad.py:23-68.
    No proofs in this file. *)
From Coq Require Import List String Arith Bool Reals.
From Verif Require Import Cplx Py Ndarray OperatorUtils ApplyOperator Sparse Noise Gates Apply.
Import ListNotations.
Local Open Scope nat_scope.

(** An operation: a gate, or one of the composites OpSequence (sequence.py:14-17), Scale
    (compose.py:17-31), Add (compose.py:67-77), Observable (compose.py:115-129), QuantumCircuit
    (circuit.py:14-32), each with its list [self.operations]. *)
Inductive oper : Type :=
| OGate (g : gate)
| OSeq (operations : list oper)
| OScale (operations : list oper) (parameter : param)
| OAdd (operations : list oper)
| OObs (operations : list oper)
| OQC (n_qubits : nat) (operations : list oper) (fparams : list string).

(** sequence.py:59-66 [flatten]: every composite is an OpSequence *)
Fixpoint flatten (o : oper) : list oper :=
  match o with
  | OGate g => [OGate g]
  | OSeq l | OScale l _ | OAdd l | OObs l | OQC _ l _ => flat_map flatten l
  end.

(** [list(iter(o))]: primitive.py:63-64, compose.py:46-47, sequence.py:58-70 *)
Definition iter (o : oper) : list oper :=
  match o with
  | OGate _ | OScale _ _ => [o]
  | OSeq l | OAdd l | OObs l | OQC _ l _ => flat_map flatten l
  end.

(** The argument [operations: Primitive | OpSequence | list] of the constructors, and
    [list(operations)] (compose.py:30, 77, 129; circuit.py:30) *)
Inductive ops_arg : Type := AList (l : list oper) | AOp (o : oper).
(** [list(operations)]: compose.py:30, 77, 129; circuit.py:30 *)
Definition list_of (a : ops_arg) : list oper := match a with AList l => l | AOp o => iter o end.
(** compose.py:27-31 [Scale.__init__] *)
Definition Scale (a : ops_arg) (p : param) : oper := OScale (list_of a) p.
(** compose.py:76-77 [Add.__init__] *)
Definition Add (a : ops_arg) : oper := OAdd (list_of a).
(** compose.py:128-129 [Observable.__init__] *)
Definition Observable (a : ops_arg) : oper := OObs (list_of a).
(** sequence.py:15-17 [OpSequence] *)
Definition OpSequence (l : list oper) : oper := OSeq l.
(** circuit.py:27-32 [QuantumCircuit.__init__] *)
Definition QuantumCircuit (n : nat) (a : ops_arg) (fparams : list string) : oper :=
  OQC n (list_of a) fparams.

(** the gates of a flat list; a composite among them has no [_unitary] (simplification: the
    AttributeError is raised before evaluating the gates that precede it) *)
Fixpoint gates_of (l : list oper) : res (list gate) :=
  match l with
  | [] => Ok []
  | OGate g :: l' => let! gs := gates_of l' in Ok (g :: gs)
  | _ :: _ => Err AttributeError
  end.

(** sequence.py:28-30 [qubit_support]; for a gate, primitive.py:140-152 *)
Fixpoint support (w : world) (o : oper) : res (list nat) :=
  match o with
  | OGate g => gate_support g
  | OSeq l | OScale l _ | OAdd l | OObs l | OQC _ l _ =>
      let! ss := mapM (support w) l in Ok (set_iter w (List.concat ss))
  end.

(** compose.py:34 and 62: [values[p] if isinstance(p, str) else p] *)
Definition param_value (p : param) (vals : values) : res R :=
  match p with PName s => let! v := lookup vals s in num v | PNum x => Ok x end.

(** sequence.py:49-55 and compose.py:105-111: the full support of a tensor *)
Definition resolve_support (w : world) (l : list oper) (full_support : option (list nat)) : res (list nat) :=
  let! ss := mapM (support w) l in
  let sup := set_iter w (List.concat ss) in
  match full_support with
  | None => Ok sup
  | Some fs => if subsetb sup fs then Ok fs else Err ValueError
  end.

(** [tensor]: sequence.py:35-56, compose.py:49-64 and 91-112, primitive.py:107-127 *)
Fixpoint tensor (w : world) (vals : values) (o : oper) (full_support : option (list nat)) : res arr :=
  match o with
  | OGate g => gate_tensor w g vals full_support
  | OSeq l | OQC _ l _ =>
      let! fs := resolve_support w l full_support in
      reduce_map (fun o => tensor w vals o (Some fs)) matmul l
  | OScale l p =>
      let! c := param_value p vals in
      let! fs := resolve_support w l full_support in
      let! t := reduce_map (fun o => tensor w vals o (Some fs)) matmul l in
      Ok (scale (RtoC c) t)
  | OAdd l | OObs l =>
      let! fs := resolve_support w l full_support in
      reduce_map (fun o => tensor w vals o (Some fs)) add l
  end.

(** [jnp.array(c) * s]; the product with a DensityMatrix or None is a TypeError *)
Definition scale_state (c : R) (s : option state) : res (option state) :=
  match s with
  | Some (SDense a) => Ok (Some (SDense (scale (RtoC c) a)))
  | Some (SSparse b) => Ok (Some (SSparse (b_scale (RtoC c) b)))
  | _ => Err TypeError
  end.

(** [s + t]; DensityMatrix and None define no addition, BCOO + Array is not implemented *)
Definition add_state (s t : option state) : res (option state) :=
  match s, t with
  | Some (SDense a), Some (SDense b) => let! r := add a b in Ok (Some (SDense r))
  | Some (SSparse a), Some (SSparse b) => let! r := b_add a b in Ok (Some (SSparse r))
  | Some (SSparse _), Some (SDense _) | Some (SDense _), Some (SSparse _) => Err NotImplementedError
  | _, _ => Err TypeError
  end.

(** [jnp.trace(m).real] of a matrix *)
Definition trace_real (m : arr) : res R :=
  match shape m with
  | [n; n'] => Ok (re (csum (seq 0 (Nat.min n n')) (fun i => get m [i; i])))
  | _ => Err ValueError
  end.

(** ad.py:58-68 [_ad_expectation_single_observable] of a density matrix, given the observable's
    tensor and qubit support *)
Definition dm_expectation (a mat_obs : arr) (sup : list nat) : res R :=
  let d := 2 ^ num_qubits_dm a in
  let! p := apply_operator a mat_obs sup (CTup [QNone]) in
  let! p := reshape p [d; d] in
  trace_real p.

(** ad.py:32-55 [_ad_expectation_single_observable] of a state vector, given the projected state;
    a density matrix has no [flatten] *)
Definition real_inner (s : state) (projected : option state) : res R :=
  match s, projected with
  | SDense a, Some (SDense b) => let! z := inner a b in Ok (re z)
  | SSparse a, Some (SSparse b) => let! z := b_inner a b in Ok (re z)
  | SSparse a, Some (SDense b) => let! z := inner (todense a) b in Ok (re z)
  | SDense a, Some (SSparse b) => let! z := inner a (todense b) in Ok (re z)
  | _, _ => Err AttributeError
  end.

(** [o(state, values)]: primitive.py:56-61, sequence.py:32-33, compose.py:33-35, 88-89 and 134-146
    (with ad.py:23-68).  An Observable returns a number, here a 0-dimensional array.
    [observable.forward] is compose.py:131-132. *)
Fixpoint call (w : world) (vals : values) (o : oper) (s : option state) : res (option state) :=
  match o with
  | OGate g =>
      let! s := match s with
                | None => let! sup := gate_support g in Ok (SDense (zero_state (List.length sup)))
                | Some s => Ok s
                end in
      let! r := apply_gates w s (GOne g) vals UNITARY false true in Ok (Some r)
  | OSeq l | OQC _ l _ => foldM (fun s o => call w vals o s) l s
  | OScale l p =>
      let! c := param_value p vals in
      let! r := foldM (fun s o => call w vals o s) l s in
      scale_state c r
  | OAdd l => reduce_map (fun o => call w vals o s) add_state l
  | OObs l =>
      match s with
      | None => Err NotImplementedError
      | Some (SDM a) =>
          let! t := tensor w vals (OObs l) None in
          let! sup := support w (OObs l) in
          let! x := dm_expectation a t sup in
          Ok (Some (SDense (scalar (RtoC x))))
      | Some st =>
          let! p := reduce_map (fun o => call w vals o s) add_state l in
          let! x := real_inner st p in
          Ok (Some (SDense (scalar (RtoC x))))
      end
  end.

(** compose.py:131-132 [Observable.forward] = compose.py:88-89 [Add.__call__] *)
Definition forward (w : world) (vals : values) (l : list oper) (s : option state) : res (option state) :=
  reduce_map (fun o => call w vals o s) add_state l.

(** ad.py:23-68 [_ad_expectation_single_observable] on Observable(l) *)
Definition ad_single (w : world) (s : state) (l : list oper) (vals : values) : res R :=
  match s with
  | SDM a =>
      let! t := tensor w vals (OObs l) None in
      let! sup := support w (OObs l) in
      dm_expectation a t sup
  | _ => let! p := forward w vals l (Some s) in real_inner s p
  end.

(** a Python set of strings, as a duplicate-free list *)
Fixpoint dedup_str (l : list string) : list string :=
  match l with [] => [] | x :: l' => if existsb (String.eqb x) l' then dedup_str l' else x :: dedup_str l' end.

(** sequence.py:72-82 [param_names]; [str_of] is Python's [str] on floats.  A Scale at top level
    iterates to itself (compose.py:46-47), and is not Parametric. *)
Definition gate_param_str (str_of : R -> string) (o : oper) : list string :=
  match o with
  | OGate g =>
      match gclass g with
      | KParam | KPhase => [match gparam g with PName s => s | PNum x => str_of x end]
      | _ => []
      end
  | _ => []
  end.
(** sequence.py:72-82 [param_names] *)
Definition param_names (str_of : R -> string) (o : oper) : list string :=
  dedup_str (flat_map (gate_param_str str_of) (iter o)).

(** circuit.py:34-50, sequence.py:84-91 [vparams], [n_vparams] *)
Definition vparams (str_of : R -> string) (o : oper) : list string :=
  match o with
  | OQC _ _ fp => filter (fun n => negb (existsb (String.eqb n) fp)) (param_names str_of o)
  | _ => param_names str_of o
  end.
(** sequence.py:84-91, circuit.py:43-50 [n_vparams] *)
Definition n_vparams (str_of : R -> string) (o : oper) : nat := List.length (vparams str_of o).

(** circuit.py:65-97 [hea]; [uuid i] is the [i]-th string produced by [str(uuid4())]; [rot_fns] are
    constructors of parametric gates *)
Definition rot_fn : Type := param -> target_arg -> index_arg -> option (list noise_inst) -> bool -> gate.
(** circuit.py:89-92: the rotations of [hea] on one qubit *)
Definition hea_rotations (rot_fns : list rot_fn) (prefix : string) (uuid : nat -> string) (k0 q : nat) : list gate :=
  map (fun kf => snd kf (PName (prefix ++ uuid (k0 + fst kf))%string) (TInt q) no_control None false)
      (combine (seq 0 (List.length rot_fns)) rot_fns).
(** circuit.py:94: the ring of NOTs of [hea] *)
Definition hea_ring (n : nat) : list gate :=
  map (fun i => NOT (TInt ((i + 1) mod n)) (IInt (i mod n)) None false) (seq 0 n).
(** circuit.py:65-97 [hea] *)
Definition hea (n n_layers : nat) (rot_fns : list rot_fn) (prefix : string) (uuid : nat -> string) : list gate :=
  flat_map (fun l =>
    flat_map (fun i => hea_rotations rot_fns prefix uuid ((l * n + i) * List.length rot_fns) i ++ hea_ring n)
             (seq 0 n))
    (seq 0 n_layers).
