(** * Model of /repo/horqrux/utils/operator_utils.py (dense arrays).

    No proofs in this file. *)
From Coq Require Import List Arith Bool Reals.
From Verif Require Import Cplx Py Ndarray.
Import ListNotations.
Local Open Scope nat_scope.

(** A qubit index as the code receives it: a Python [int], a NumPy [np.int64], or [None].
    Simplification: indices are non-negative; array-valued indices ([idx.astype(int)],
    primitive.py:46-47) are not modelled. *)
Inductive qidx : Type := QInt (n : nat) | QNp (n : nat) | QNone.

(** One element of [gate.control]: [None] (from [none_like], operator_utils.py:407-416) or a tuple. *)
Inductive cspec : Type := CNone | CTup (l : list qidx).

(** operator_utils.py:463-468 [is_controlled]; [isinstance(np.int64(0), int)] is False. *)
Definition is_controlled_idx (q : qidx) : bool := match q with QInt _ => true | _ => false end.
(** operator_utils.py:463-468 [is_controlled] *)
Definition is_controlled (c : cspec) : bool :=
  match c with CNone => false | CTup l => existsb is_controlled_idx l end.

(** a tuple of indices used as array axes or as sortable qubits; [None] raises TypeError *)
Definition qidx_nat (q : qidx) : res nat :=
  match q with QInt n => Ok n | QNp n => Ok n | QNone => Err TypeError end.
(** the same for a whole [control] or [target] tuple *)
Definition axes_of (c : cspec) : res (list nat) :=
  match c with CNone => Err TypeError | CTup l => mapM qidx_nat l end.
(** [len(control)] *)
Definition clen (c : cspec) : nat := match c with CNone => 0 | CTup l => length l end.

(** operator_utils.py:69-93 [permute_basis] *)
Definition permute_basis (operator : arr) (qubit_support : list nat) (inv : bool) : res arr :=
  let ordered_support := argsort qubit_support in
  let ranked_support := argsort ordered_support in
  let n_qubits := length qubit_support in
  if list_eqb ranked_support (seq 0 n_qubits) then Ok operator
  else
    let perm := ranked_support ++ map (Nat.add n_qubits) ranked_support in
    let perm := if inv then argsort perm else perm in
    transpose operator perm.

(** operator_utils.py:126-139 [_dagger] *)
Definition dagger (operator : arr) : res arr :=
  if Nat.ltb 2 (ndim operator) then
    let half := ndim operator / 2 in
    transpose (conj operator) (seq half (ndim operator - half) ++ seq 0 half)
  else
    let! t := transpose operator (rev (seq 0 (ndim operator))) in
    Ok (conj t).

(** operator_utils.py:52-66 [density_mat] (on a state vector) *)
Definition density_mat (state : arr) : res arr :=
  let ket := expand_dims state (ndim state) (ndim state) in
  let bra := conj (expand_dims state 0 (ndim state)) in
  bmul ket bra.

(** operator_utils.py:147-151 [_unitary]: cos(theta/2) * eye(2) - 1j * sin(theta/2) * generator *)
Definition unitary_of_generator (generator : arr) (theta : R) : res arr :=
  sub (scale (RtoC (cos (theta / 2))) (eye 2))
      (scale (Cmul Ci (RtoC (sin (theta / 2)))) generator).

(** operator_utils.py:167-174 [_jacobian]: -1/2 * (sin(theta/2) * eye(2) + 1j * cos(theta/2)) * generator;
    adding the scalar [1j * cos(theta/2)] adds it to every entry, and the last product is
    elementwise. *)
Definition jacobian_of_generator (generator : arr) (theta : R) : res arr :=
  zip_arr Cmul
    (scale (RtoC (-1 / 2))
       (map_arr (fun z => Cadd z (Cmul Ci (RtoC (cos (theta / 2)))))
                (scale (RtoC (sin (theta / 2))) (eye 2))))
    generator.

(** operator_utils.py:195-210 [_controlled] *)
Definition controlled_block (operator : arr) (n_control : nat) : res arr :=
  match shape operator with
  | [] => Err IndexError
  | d :: _ =>
      let n_qubits := Nat.log2 d in
      set_corner (eye (2 ^ (n_control + n_qubits))) (2 ^ n_qubits) operator
  end.

(** operator_utils.py:248-279 [prepare_controlled]: dimension and indices of the controlled
    subspace.  [control_qubits]/[target_qubits] are the single elements [control[0]], [target[0]]. *)
Definition prepare_controlled (operator : arr) (targets : list nat) (control : cspec)
  : res (nat * list nat) :=
  let! controls := match control with CNone => Ok [] | CTup l => mapM qidx_nat l end in
  match shape operator with
  | [] => Err IndexError
  | d :: _ =>
      let n_qop := Nat.log2 d in
      let n_targets := length targets in
      if negb (Nat.eqb n_qop n_targets) then Err ValueError
      else
        let ntotal := length controls + n_targets in
        let support := sorted (controls ++ targets) in
        let control_ind :=
          filter (fun i => mem (nth i support 0) controls) (seq 0 (length support)) in
        let full_dim := 2 ^ ntotal in
        let control_mask := fold_right Nat.add 0 (map (fun c => Nat.shiftl 1 (ntotal - c - 1)) control_ind) in
        let controlled_indices :=
          filter (fun i => Nat.eqb (Nat.land i control_mask) control_mask) (seq 0 full_dim) in
        Ok (full_dim, controlled_indices)
  end.

(** operator_utils.py:282-306 [controlled] *)
Definition controlled (operator : arr) (targets : list nat) (control : cspec) : res arr :=
  let! fi := prepare_controlled operator targets control in
  set_ix (eye (fst fi)) (snd fi) operator.

(** operator_utils.py:419-430 [hilbert_reshape] *)
Definition hilbert_reshape (operator : arr) : res arr :=
  reshape operator (repeat 2 (Nat.log2 (size operator))).

(** operator_utils.py:339-378 [expand_operator] (dense); [matrices._I] is the 2x2 identity *)
Definition expand_operator (operator : arr) (qubit_support full_support : list nat) : res arr :=
  let full_support := sorted full_support in
  let qubit_support := sorted qubit_support in
  let n_full := 2 ^ length full_support in
  if negb (subsetb qubit_support full_support) then Err ValueError
  else
    let kron_qubits := sorted (set_diff full_support qubit_support) in
    let! kron_operator :=
      foldM (fun acc i => kron acc i)
            (repeat (matrix [[C1; C0]; [C0; C1]]) (length kron_qubits)) operator in
    let! kron_operator := hilbert_reshape kron_operator in
    let! kron_operator := permute_basis kron_operator (qubit_support ++ kron_qubits) true in
    reshape kron_operator [n_full; n_full].

(** operator_utils.py:381-400 [product_state] (dense); the bitstring is given by its digits *)
Definition product_state (bitstring : list nat) : arr :=
  set_at (zeros (repeat 2 (length bitstring))) bitstring C1.

(** operator_utils.py:403-404 [zero_state] *)
Definition zero_state (n_qubits : nat) : arr := product_state (repeat 0 n_qubits).

(** operator_utils.py:446-448 [inner] *)
Definition inner (state projection : arr) : res C :=
  vdot (map Cconj (data state)) (data projection).

(** operator_utils.py:451-452 [overlap]: real part of the square of the inner product *)
Definition overlap (state projection : arr) : res R :=
  let! z := inner state projection in Ok (re (Cmul z z)).

(** operator_utils.py:433-443 [equivalent_state]: jnp.allclose(overlap, 1.0, atol=1e-14) with the
    default rtol = 1e-5, i.e. |overlap - 1| <= atol + rtol * |1| *)
Definition equivalent_state (s0 s1 : arr) : res bool :=
  let! o := overlap s0 s1 in
  Ok (if Rle_dec (Rabs (o - 1)) (/ 10 ^ 14 + / 10 ^ 5 * Rabs 1) then true else false).

(** operator_utils.py:488-489 [is_normalized] *)
Definition is_normalized (state : arr) : res bool := equivalent_state state state.

(** operator_utils.py:455-460 [uniform_state] (dense) *)
Definition uniform_state (n_qubits : nat) : res arr :=
  reshape (mkArr [2 ^ n_qubits]
                 (repeat (RtoC (1 / sqrt (INR (2 ^ n_qubits)))) (2 ^ n_qubits)))
          (repeat 2 n_qubits).

(** operator_utils.py:471-485 [random_state] (dense).  [u] are the uniform draws; the code uses the
    same key twice, hence the same draws for magnitudes and phases. *)
Definition random_state (n_qubits : nat) (u : list R) : res arr :=
  let x := map (fun t => (- ln t)%R) u in
  let sumx := fold_right Rplus 0%R x in
  let phases := map (fun t => (t * 2 * PI)%R) u in
  let amps := map (fun xp => Cmul (RtoC (sqrt (fst xp / sumx))) (Cexpi (snd xp))) (combine x phases) in
  let! state := reshape (mkArr [2 ^ n_qubits] amps) (repeat 2 n_qubits) in
  let nrm := sqrt (fold_right Rplus 0%R (map (fun z => (Cabs z * Cabs z)%R) (data state))) in
  Ok (map_arr (fun z => Cmul z (RtoC (/ nrm))) state).

(** operator_utils.py:526-528 [probabilities] of a state vector: |float_power(state, 2)|, ravelled *)
Definition probabilities_array (state : arr) : list R :=
  map (fun z => Cabs (Cmul z z)) (data state).

(** operator_utils.py:531-533 [probabilities] of a density matrix: real part of
    [jnp.diagonal(array)], the diagonal of the first two axes, appended as the last axis.
    The result is an array of reals with the given shape. *)
Definition probabilities_dm (a : arr) : res (list nat * list R) :=
  match shape a with
  | d0 :: d1 :: rest =>
      let k := Nat.min d0 d1 in
      let s := rest ++ [k] in
      Ok (s, map (fun v => let i := nth (length rest) v 0 in
                           re (get a (i :: i :: firstn (length rest) v))) (indices s))
  | _ => Err ValueError
  end.

(** operator_utils.py:549-556 [num_qubits] *)
Definition num_qubits_array (state : arr) : nat := ndim state.
(** operator_utils.py:554-556 [num_qubits] of a DensityMatrix *)
Definition num_qubits_dm (a : arr) : nat := ndim a / 2.
