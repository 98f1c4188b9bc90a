(** * Sparse arrays: model of [jax.experimental.sparse.BCOO] as far as /repo uses it, and of the
    BCOO branches of /repo/horqrux/utils/operator_utils.py.  No proofs in this file.

    A BCOO array is a shape and a list of (index, value) pairs; duplicates add up and entries out
    of bounds are ignored, as in JAX.  The primitives are trusted: each does on coordinates what
    its dense counterpart in Ndarray.v does on entries.  (The real spsp product pads its result
    with out-of-bounds entries; dropping them is invisible.) *)
From Coq Require Import List Arith Bool Reals.
From Verif Require Import Cplx Py Ndarray OperatorUtils.
Import ListNotations.
Local Open Scope nat_scope.

(** a BCOO array: its shape and its list of (index, value) entries *)
Record bcoo : Type := mkB { bshp : list nat; bent : list (list nat * C) }.

(** [b.ndim] *)
Definition bndim (b : bcoo) : nat := length (bshp b).

(** is the index inside the shape? *)
Fixpoint in_shape (s v : list nat) : bool :=
  match s, v with
  | [], [] => true
  | d :: s', i :: v' => Nat.ltb i d && in_shape s' v'
  | _, _ => false
  end.

(** [b.todense()] *)
Definition todense (b : bcoo) : arr :=
  build (bshp b)
        (fun v => csum (bent b) (fun e => if list_eqb (fst e) v then snd e else C0)).

(** [BCOO.fromdense(a)]: the nonzero entries *)
Definition fromdense (a : arr) : bcoo :=
  mkB (shape a)
      (map (fun v => (v, get a v))
           (filter (fun v => if C_eq_dec (get a v) C0 then false else true) (indices (shape a)))).

(** [b.reshape(s)] *)
Definition b_reshape (b : bcoo) (s : list nat) : res bcoo :=
  if Nat.eqb (prod s) (prod (bshp b))
  then Ok (mkB s (map (fun e => (unravel s (ravel (bshp b) (fst e)), snd e))
                      (filter (fun e => in_shape (bshp b) (fst e)) (bent b))))
  else Err TypeError.

(** [c * b], [jnp.conj(b)] *)
Definition b_map (f : C -> C) (b : bcoo) : bcoo := mkB (bshp b) (map (fun e => (fst e, f (snd e))) (bent b)).
(** [c * b] *)
Definition b_scale (c : C) : bcoo -> bcoo := b_map (Cmul c).
(** [jnp.conj(b)] *)
Definition b_conj : bcoo -> bcoo := b_map Cconj.

(** [a + b], [a - b] *)
Definition b_add (a b : bcoo) : res bcoo :=
  if list_eqb (bshp a) (bshp b) then Ok (mkB (bshp a) (bent a ++ bent b)) else Err TypeError.
(** [a - b] *)
Definition b_sub (a b : bcoo) : res bcoo := b_add a (b_map Copp b).

(** [bcoo_transpose(b, p)] *)
Definition b_transpose (b : bcoo) (p : list nat) : res bcoo :=
  if permb (bndim b) p
  then Ok (mkB (restrict (bshp b) p) (map (fun e => (restrict (fst e) p, snd e)) (bent b)))
  else Err TypeError.

(** [sparsify(jnp.moveaxis)(b, source, destination)] *)
Definition b_moveaxis (b : bcoo) (source destination : list nat) : res bcoo :=
  if negb (forallb (fun i => Nat.ltb i (bndim b)) source
           && forallb (fun i => Nat.ltb i (bndim b)) destination) then Err ValueError
  else if negb (Nat.eqb (length source) (length destination)) then Err ValueError
  else b_transpose b (moveaxis_order (bndim b) source destination).

(** [sparsify(jnp.tensordot)(a, b, axes=(axa, axb))]: multiply all pairs of entries that agree on
    the contracted axes *)
Definition b_tensordot (a b : bcoo) (axa axb : list nat) : res bcoo :=
  if negb (Nat.eqb (length axa) (length axb)) then Err TypeError
  else if negb (forallb (fun i => Nat.ltb i (bndim a)) axa
                && forallb (fun i => Nat.ltb i (bndim b)) axb) then Err ValueError
  else if negb (nodupb axa && nodupb axb) then Err TypeError
  else if negb (list_eqb (restrict (bshp a) axa) (restrict (bshp b) axb)) then Err TypeError
  else
    let fa := free_axes (bndim a) axa in
    let fb := free_axes (bndim b) axb in
    Ok (mkB (restrict (bshp a) fa ++ restrict (bshp b) fb)
          (flat_map (fun ea =>
             map (fun eb => (restrict (fst ea) fa ++ restrict (fst eb) fb, Cmul (snd ea) (snd eb)))
                 (filter (fun eb => in_shape (bshp a) (fst ea) && in_shape (bshp b) (fst eb)
                                    && list_eqb (restrict (fst ea) axa) (restrict (fst eb) axb)) (bent b)))
             (bent a))).

(** [a @ b] on matrices *)
Definition b_matmul (a b : bcoo) : res bcoo :=
  match bshp a, bshp b with
  | [_; _], [_; _] => b_tensordot a b [1] [0]
  | _, _ => Err TypeError
  end.

(** [jax.experimental.sparse.eye(n)] *)
Definition b_eye (n : nat) : bcoo := mkB [n; n] (map (fun i => ([i; i], C1)) (seq 0 n)).

(** operator_utils.py:126-139 [_dagger] under [sparsify] *)
Definition b_dagger (operator : bcoo) : res bcoo :=
  if Nat.ltb 2 (bndim operator) then
    let half := bndim operator / 2 in
    b_transpose (b_conj operator) (seq half (bndim operator - half) ++ seq 0 half)
  else
    let! t := b_transpose operator (rev (seq 0 (bndim operator))) in
    Ok (b_conj t).

(** operator_utils.py:154-159 [_unitary] *)
Definition b_unitary (generator : bcoo) (theta : R) : res bcoo :=
  b_sub (b_scale (RtoC (cos (theta / 2))) (b_eye 2))
        (b_scale (Cmul Ci (RtoC (sin (theta / 2)))) generator).

(** operator_utils.py:177-187 [_jacobian]: adding a scalar to a BCOO array is not implemented *)
Definition b_jacobian (generator : bcoo) (theta : R) : res bcoo := Err NotImplementedError.

(** operator_utils.py:213-234 [_controlled] *)
Definition b_controlled (operator : bcoo) (n_control : nat) : res bcoo :=
  match bshp operator with
  | [] => Err IndexError
  | d :: _ =>
      let n_qubits := Nat.log2 d in
      let shape_dim := 2 ^ (n_control + n_qubits) in
      let control_elements := shape_dim - 2 ^ n_qubits in
      Ok (mkB [shape_dim; shape_dim]
              (bent (b_eye control_elements)
               ++ map (fun e => (map (Nat.add control_elements) (fst e), snd e)) (bent operator)))
  end.

(** [kron_sp(a, b)] (sparse_utils.py:8) on matrices: all products of an entry of [a] and an entry of [b] *)
Definition b_kron (a b : bcoo) : res bcoo :=
  match bshp a, bshp b with
  | [n; m], [p; q] =>
      Ok (mkB [n * p; m * q]
            (flat_map (fun ea =>
               map (fun eb => ([nth 0 (fst ea) 0 * p + nth 0 (fst eb) 0; nth 1 (fst ea) 0 * q + nth 1 (fst eb) 0],
                               Cmul (snd ea) (snd eb)))
                   (filter (fun eb => in_shape (bshp a) (fst ea) && in_shape (bshp b) (fst eb)) (bent b)))
               (bent a)))
  | _, _ => Err TypeError
  end.

(** operator_utils.py:69-93 [permute_basis] of a BCOO array *)
Definition b_permute_basis (operator : bcoo) (qubit_support : list nat) (inv : bool) : res bcoo :=
  let ordered_support := argsort qubit_support in
  let ranked_support := argsort ordered_support in
  let n_qubits := length qubit_support in
  if list_eqb ranked_support (seq 0 n_qubits) then Ok operator
  else
    let perm := ranked_support ++ map (Nat.add n_qubits) ranked_support in
    let perm := if inv then argsort perm else perm in
    b_transpose operator perm.

(** operator_utils.py:309-336 [controlled] of a BCOO array: built as a dense array *)
Definition b_controlled_on (operator : bcoo) (targets : list nat) (control : cspec) : res bcoo :=
  let! c := controlled (todense operator) targets control in Ok (fromdense c).

(** operator_utils.py:419-430 [hilbert_reshape] *)
Definition b_hilbert_reshape (operator : bcoo) : res bcoo :=
  b_reshape operator (repeat 2 (Nat.log2 (prod (bshp operator)))).

(** operator_utils.py:339-378 [expand_operator] of a BCOO array *)
Definition b_expand_operator (operator : bcoo) (qubit_support full_support : list nat) : res bcoo :=
  let full_support := sorted full_support in
  let qubit_support := sorted qubit_support in
  let n_full := 2 ^ length full_support in
  if negb (subsetb qubit_support full_support) then Err ValueError
  else
    let kron_qubits := sorted (set_diff full_support qubit_support) in
    let! kron_operator := foldM (fun acc i => b_kron acc i) (repeat (b_eye 2) (length kron_qubits)) operator in
    let! kron_operator := b_hilbert_reshape kron_operator in
    let! kron_operator := b_permute_basis kron_operator (qubit_support ++ kron_qubits) true in
    b_reshape kron_operator [n_full; n_full].

(** operator_utils.py:381-400 [product_state] with sparse=True *)
Definition b_product_state (bitstring : list nat) : bcoo :=
  mkB (repeat 2 (length bitstring)) [(bitstring, C1)].

(** operator_utils.py:403-404 [zero_state] with sparse=True *)
Definition b_zero_state (n_qubits : nat) : bcoo := b_product_state (repeat 0 n_qubits).
(** operator_utils.py:455-460 [uniform_state] with sparse=True *)
Definition b_uniform_state (n_qubits : nat) : res bcoo :=
  b_reshape (fromdense (mkArr [2 ^ n_qubits] (repeat (RtoC (1 / sqrt (INR (2 ^ n_qubits)))) (2 ^ n_qubits))))
            (repeat 2 n_qubits).
(** operator_utils.py:471-485 [random_state] with sparse=True *)
Definition b_random_state (n_qubits : nat) (u : list R) : res bcoo :=
  let! state := random_state n_qubits u in Ok (fromdense state).

(** operator_utils.py:446-448 [inner] under [sparsify] *)
Definition b_inner (state projection : bcoo) : res C :=
  if Nat.eqb (prod (bshp state)) (prod (bshp projection))
  then Ok (csum (bent state) (fun e => csum (bent projection) (fun f =>
             if in_shape (bshp state) (fst e) && in_shape (bshp projection) (fst f)
                && Nat.eqb (ravel (bshp state) (fst e)) (ravel (bshp projection) (fst f))
             then Cmul (Cconj (snd e)) (snd f) else C0)))
  else Err TypeError.

(** apply.py:93-134 [apply_operator] on a sparse state *)
Definition b_apply_operator (state operator : bcoo) (target : list nat) (control : cspec) : res bcoo :=
  let! od :=
    if is_controlled control then
      let! o := b_controlled operator (clen control) in
      let! cs := axes_of control in
      Ok (o, cs ++ target)
    else Ok (operator, target) in
  match bshp (fst od) with
  | _ :: d1 :: _ =>
      let! op := b_reshape (fst od) (repeat 2 (2 * Nat.log2 d1)) in
      let state_dims := snd od in
      let op_out_dims := seq (bndim op / 2) (bndim op - bndim op / 2) in
      let new_state_dims := seq 0 (length state_dims) in
      let! state := b_tensordot op state op_out_dims state_dims in
      b_moveaxis state new_state_dims state_dims
  | _ => Err IndexError
  end.
