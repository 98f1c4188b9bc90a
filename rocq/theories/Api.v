(** * Model of /repo/horqrux/api.py, /repo/horqrux/utils/values_utils.py,
    /repo/horqrux/differentiation/ad.py:71-105 and /repo/horqrux/differentiation/adjoint.py.
    No proofs in this file. *)
From Coq Require Import List String Arith Bool Reals ZArith.
From Verif Require Import Cplx Py Ndarray OperatorUtils Sparse Noise Gates Apply Composite Conversion Shots Gpsr.
Import ListNotations.
Local Open Scope nat_scope.

(** [k in d.keys()] *)
Definition has_key {V : Type} (d : list (string * V)) (k : string) : bool :=
  existsb (fun kv => String.eqb k (fst kv)) d.
(** a value used as a parameter dictionary.  Simplification: using a number or a matrix as a dictionary
    raises TypeError here at once, in the code when a parameter is first looked up. *)
Definition as_dict (v : pyval) : res values := match v with VDict d => Ok d | _ => Err TypeError end.

(** values_utils.py:4-13 [_values_processing]; the empty dictionary stands for [None] too *)
Definition values_processing (vals : values) : res (values * values) :=
  if has_key vals "circuit" && has_key vals "observables" then
    let! o := lookup vals "observables" in
    let! c := lookup vals "circuit" in
    let! o := as_dict o in
    let! c := as_dict c in
    Ok (c, o)
  else Ok (vals, vals).

(** [stack_sp(outputs)]: ValueError on an empty list *)
Definition stack (outputs : list R) : res (list R) :=
  match outputs with [] => Err ValueError | _ => Ok outputs end.

(** [apply_gates(state, list(iter(circuit)), values, OperationType.UNITARY)] *)
Definition run_flat (w : world) (st : state) (circuit : oper) (vals : values) : res state :=
  let! gs := gates_of (iter circuit) in
  apply_gates w st (GMany gs) vals UNITARY false true.

(** ad.py:71-105 [ad_expectation]; an observable is given by its list of operations *)
Definition ad_expectation (w : world) (st : state) (circuit : oper) (observables : list (list oper))
  (vals : values) : res (list R) :=
  let! co := values_processing vals in
  let! outputs := mapM (fun l => let! out := run_flat w st circuit (fst co) in ad_single w out l (snd co)) observables in
  stack outputs.

(** adjoint.py:13-22 [ad_expectation] and 32-38 [adjoint_expectation], for one observable *)
Definition adjoint_single (w : world) (st : state) (circuit : oper) (l : list oper) (vals : values) : res R :=
  let! out := run_flat w st circuit vals in
  let! projected := forward w vals l (Some out) in
  real_inner out projected.
(** api.py:65-89 [adjoint_expectation] *)
Definition adjoint_expectation (w : world) (st : state) (circuit : oper) (observables : list (list oper))
  (vals : values) : res (list R) :=
  let! outputs := mapM (fun l => adjoint_single w st circuit l vals) observables in
  stack outputs.

(** api.py:25-30 [run] *)
Definition run (w : world) (circuit : oper) (st : state) (vals : values) : res (option state) :=
  call w vals circuit (Some st).

(** Does [circuit(state, values)] return the very object [state]?  Applying a gate builds a new object;
    a sequence returns the object its last operation returned, and the initial one if it has none;
    the reduction of a single summand is that summand. *)
Fixpoint returns_input (o : oper) : bool :=
  match o with
  | OGate _ | OScale _ _ | OObs _ => false
  | OSeq l | OQC _ l _ => forallb returns_input l
  | OAdd l => match l with [x] => returns_input x | _ => false end
  end.

(** api.py:33-62 [sample].  The second component is the caller's state object after the call: the code
    assigns to [output_circuit.array], which is the caller's DensityMatrix when the circuit returns its
    input.  [probabilities] is not registered for BCOO (nor is [num_qubits]). *)
Definition sample (w : world) (st : state) (circuit : oper) (vals : values) (n_shots : Z)
  : res (list (list nat * nat)) * state :=
  if Z.ltb n_shots 1 then (Err ValueError, st)
  else
    match call w vals circuit (Some st) with
    | Err e => (Err e, st)
    | Ok None => (Err NotImplementedError, st)
    | Ok (Some out) =>
        match num_qubits out with
        | Err e => (Err e, st)
        | Ok n =>
            match square_dm out n with
            | Err e => (Err e, st)
            | Ok out' =>
                let st' := if returns_input circuit then out' else st in
                (match out' with
                 | SDense a =>
                     sample_from_probs w [List.length (data a)] (probabilities_array a) n (Z.to_nat n_shots)
                 | SDM a =>
                     let! sp := probabilities_dm a in
                     sample_from_probs w (fst sp) (snd sp) n (Z.to_nat n_shots)
                 | SSparse _ => Err NotImplementedError
                 end, st')
            end
        end
    end.

(** operator_utils.py:113-124 [DiffMode]; [OtherMode] is any other value *)
Inductive diff_mode : Type := AD | ADJOINT | GPSR | OtherMode.

(** api.py:92-162 [expectation] *)
Definition expectation (w : world) (st : state) (circuit : oper) (observables : list (list oper))
  (vals : values) (mode : diff_mode) (n_shots : Z) (key : nat) : res (list R) :=
  match mode with
  | AD =>
      if Z.ltb n_shots 0 then Err ValueError
      else if Z.eqb n_shots 0 then ad_expectation w st circuit observables vals
      else let! gs := gates_of (iter circuit) in
           finite_shots w st (GMany gs) observables vals (Z.to_nat n_shots) key
  | ADJOINT =>
      match st with
      | SDM _ => Err TypeError
      | _ => adjoint_expectation w st circuit observables vals
      end
  | GPSR =>
      if Z.ltb n_shots 0 then Err ValueError
      else if Z.eqb n_shots 0 then
        let! gs := gates_of (iter circuit) in
        analytical_expectation w st (GMany gs) observables vals
      else let! gs := gates_of (iter circuit) in
           finite_shots w st (GMany gs) observables vals (Z.to_nat n_shots) key
  | OtherMode => Err ValueError
  end.

(** adjoint.py:41-51 [adjoint_expectation_single_observable_fwd]: value and residuals *)
Definition adjoint_fwd (w : world) (st : state) (circuit : oper) (l : list oper) (vals : values)
  : res (R * (state * option state * list gate * values)) :=
  let! gs := gates_of (iter circuit) in
  let! out := apply_gates w st (GMany gs) vals UNITARY false true in
  let! projected := forward w vals l (Some out) in
  let! x := real_inner out projected in
  Ok (x, (out, projected, gs, vals)).

(** adjoint.py:65-87 [gate_bwd_apply]: uncompute gate [i] and accumulate the gradient of its parameter.
    [grads] starts with [None] for every key of [values]; [None += grad] raises TypeError. *)
Definition gate_bwd_apply (w : world) (gates : list gate) (vals : values) (tangent : R) (i : nat)
  (acc : state * state * list (string * option R)) : res (state * state * list (string * option R)) :=
  let '(out, projected, grads) := acc in
  match nth_error gates i with
  | None => Err IndexError
  | Some g =>
      let! out := apply_gates w out (GOne g) vals DAGGER false true in
      let! grads :=
        if is_parametric g then
          let! mu := apply_gates w out (GOne g) vals JACOBIAN false true in
          let! z := real_inner mu (Some projected) in
          let grad := (tangent * 2 * z)%R in
          match gparam g with
          | PName s =>
              if has_key grads s then
                let! old := lookup grads s in
                match old with
                | None => Err TypeError
                | Some x => Ok (dict_set grads s (Some (x + grad)%R))
                end
              else Ok (dict_set grads s (Some grad))
          | PNum _ => Err KeyError
          end
        else Ok grads in
      let! projected := apply_gates w projected (GOne g) vals DAGGER false true in
      Ok (out, projected, grads)
  end.

(** [jax.lax.fori_loop(lower, upper, body, init)]: iterates over [lower .. upper - 1] *)
Definition fori_loop {S : Type} (lower upper : nat) (body : nat -> S -> res S) (init : S) : res S :=
  foldM (fun s i => body i s) (seq lower (upper - lower)) init.

(** adjoint.py:54-90 [adjoint_expectation_single_observable_bwd]: the gradients returned for [values].
    [len(gates) - 1] is -1 for no gates, and then the loop runs over -1, i.e. [gates[-1]] raises IndexError.
    This is the behaviour of the loop when executed eagerly (jax.disable_jit); otherwise JAX traces the
    body with an abstract index and indexing the Python list [gates] with it raises a TypeError.
    Nothing in the library calls this function: [adjoint_expectation] does not use the custom rule. *)
Definition adjoint_bwd (w : world) (res_ : state * option state * list gate * values) (tangent : R)
  : res (list (string * option R)) :=
  let '(out, projected, gates, vals) := res_ in
  let grads := map (fun kv => (fst kv, None)) vals in
  match projected, gates with
  | None, _ => Err AttributeError
  | _, [] => Err IndexError
  | Some p, _ =>
      let! r := fori_loop (List.length gates - 1) 0 (gate_bwd_apply w gates vals tangent) (out, p, grads) in
      Ok (snd r)
  end.
