(** * Model of /repo/horqrux/apply.py:29-240 (dense state vectors and density matrices).

    No proofs in this file.  [so] is the iteration order of a Python set, given the sequence of its
    insertions: only that it lists each element once is ever assumed ([set_order], Spec.v). *)
From Coq Require Import List Arith Bool.
From Verif Require Import Cplx Py Ndarray OperatorUtils.
Import ListNotations.
Local Open Scope nat_scope.

(** apply.py:79-85 (and 157-163): the operator actually contracted and the state axes it acts on.
    [is_controlled(control)] selects the block-diagonal embedding [_controlled]; then the matrix is reshaped to
    axes of length two.  [np.log2(operator.shape[1])] raises IndexError on arrays of rank < 2. *)
Definition prepare_operator (operator : arr) (target : list nat) (control : cspec)
  : res (arr * list nat) :=
  let! od :=
    if is_controlled control then
      let! o := controlled_block operator (clen control) in
      let! cs := axes_of control in
      Ok (o, cs ++ target)
    else Ok (operator, target) in
  match shape (fst od) with
  | _ :: d1 :: _ =>
      let! o := reshape (fst od) (repeat 2 (2 * Nat.log2 d1)) in
      Ok (o, snd od)
  | _ => Err IndexError
  end.

(** apply.py:53-90 [apply_operator] on a state vector *)
Definition apply_operator (state operator : arr) (target : list nat) (control : cspec) : res arr :=
  let! od := prepare_operator operator target control in
  let op := fst od in
  let state_dims := snd od in
  let op_out_dims := seq (ndim op / 2) (ndim op - ndim op / 2) in
  let new_state_dims := seq 0 (length state_dims) in
  let! state := tensordot op state op_out_dims state_dims in
  moveaxis state new_state_dims state_dims.

(** apply.py:137-179 [apply_operator] on a density matrix (its array) *)
Definition apply_operator_dm (so : list nat -> list nat)
  (state operator : arr) (target : list nat) (control : cspec) : res arr :=
  let! od := prepare_operator operator target control in
  let op := fst od in
  let state_dims := snd od in
  let op_out_dims := seq (ndim op / 2) (ndim op - ndim op / 2) in
  let op_in_dims := seq 0 (ndim op / 2) in
  let new_state_dims := seq 0 (length state_dims) in
  let support_perm := state_dims ++ so (set_diff (seq 0 (ndim state / 2)) state_dims) in
  let! out := permute_basis state support_perm false in
  let! out := tensordot op out op_out_dims new_state_dims in
  let! out := dagger out in
  let! out := tensordot op out op_out_dims op_in_dims in
  let! out := dagger out in
  permute_basis out support_perm true.

(** apply.py:182-211 [apply_kraus_operator] *)
Definition apply_kraus_operator (kraus array : arr) (target : list nat) : res arr :=
  let n_qubits := Nat.log2 (size kraus) in
  let! kraus := reshape kraus (repeat 2 n_qubits) in
  let op_out_dims := seq (ndim kraus / 2) (ndim kraus - ndim kraus / 2) in
  let op_in_dims := seq 0 (ndim kraus / 2) in
  let new_state_dims := seq 0 (length target) in
  let! array := moveaxis array new_state_dims target in
  let! array := tensordot kraus array op_out_dims new_state_dims in
  let! array := dagger array in
  let! array := tensordot kraus array op_out_dims op_in_dims in
  let! array := dagger array in
  moveaxis array target new_state_dims.

(** apply.py:214-240 [apply_kraus_sum]; [jax.vmap] over the stacked operators, then [jnp.sum(_, 0)].
    Mapping over an empty stack raises ValueError ([jnp.stack] of an empty list). *)
Definition apply_kraus_sum (kraus_ops : list arr) (array : arr) (target : list nat) : res arr :=
  let! evol := mapM (fun k => apply_kraus_operator k array target) kraus_ops in
  match evol with
  | [] => Err ValueError
  | e :: es => foldM add es e
  end.
