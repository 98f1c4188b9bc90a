(** * NumPy / JAX array layer.

    Arrays are a shape and a row-major list of entries.  Each primitive is the documented meaning
    of the [jax.numpy] function named in its comment (trusted: these are external to /repo), restricted to the
    argument forms the repository uses; shape errors are raised exactly where the primitive would
    raise.  This file contains no proofs. *)
From Coq Require Import List Arith Bool.
From Verif Require Import Cplx Py.
Import ListNotations.

(** a dense JAX / NumPy array: its shape and its entries in C order *)
Record arr : Type := mkArr { shape : list nat; data : list C }.

(** [a.ndim] *)
Definition ndim (a : arr) : nat := length (shape a).

(** number of entries of an array of shape [s] *)
Fixpoint prod (s : list nat) : nat := match s with [] => 1 | d :: s' => d * prod s' end.

(** [a.size] *)
Definition size (a : arr) : nat := prod (shape a).

(** all multi-indices of shape [s] in row-major order *)
Fixpoint indices (s : list nat) : list (list nat) :=
  match s with
  | [] => [[]]
  | d :: s' => flat_map (fun i => map (cons i) (indices s')) (seq 0 d)
  end.

(** row-major position of a multi-index *)
Fixpoint ravel (s v : list nat) : nat :=
  match s, v with
  | _ :: s', i :: v' => i * prod s' + ravel s' v'
  | _, _ => 0
  end.

(** the multi-index at row-major position [k] *)
Definition unravel (s : list nat) (k : nat) : list nat := nth k (indices s) [].

(** [a[v]] for a full multi-index [v] in bounds *)
Definition get (a : arr) (v : list nat) : C := nth (ravel (shape a) v) (data a) C0.

(** the array of shape [s] with entry [f v] at [v] *)
Definition build (s : list nat) (f : list nat -> C) : arr := mkArr s (map f (indices s)).

(** the data of an array has as many entries as its shape says *)
Definition wf (a : arr) : Prop := length (data a) = prod (shape a).

(** [a.reshape(s)]: TypeError when the sizes differ *)
Definition reshape (a : arr) (s : list nat) : res arr :=
  if Nat.eqb (prod s) (prod (shape a)) then Ok (mkArr s (data a)) else Err TypeError.

(** elementwise functions *)
Definition map_arr (f : C -> C) (a : arr) : arr := mkArr (shape a) (map f (data a)).
(** [jnp.conj] *)
Definition conj (a : arr) : arr := map_arr Cconj a.
(** [c * a] for a scalar [c] *)
Definition scale (c : C) (a : arr) : arr := map_arr (Cmul c) a.

(** elementwise binary functions on arrays of equal shape (the only broadcasting used besides
    [bmul] below); TypeError otherwise *)
Definition zip_arr (f : C -> C -> C) (a b : arr) : res arr :=
  if list_eqb (shape a) (shape b)
  then Ok (mkArr (shape a) (map (fun xy => f (fst xy) (snd xy)) (combine (data a) (data b))))
  else Err TypeError.
(** [a + b] *)
Definition add (a b : arr) : res arr := zip_arr Cadd a b.
(** [a - b] *)
Definition sub (a b : arr) : res arr := zip_arr Csub a b.

(** [lax.transpose(a, p)]: out[v] = a[w] with w[p[k]] = v[k]; TypeError unless [p] is a
    permutation of the axes *)
Definition transpose (a : arr) (p : list nat) : res arr :=
  if permb (ndim a) p
  then Ok (build (restrict (shape a) p) (fun v => get a (place p v)))
  else Err TypeError.

(** order of [(destination, source)] pairs in [sorted(zip(destination, source))] *)
Definition pair_leb (x y : nat * nat) : bool :=
  if Nat.ltb (fst x) (fst y) then true
  else if Nat.ltb (fst y) (fst x) then false else Nat.leb (snd x) (snd y).

(** the permutation [jnp.moveaxis] computes: the axes not in [source], then each source inserted
    at its destination, in increasing order of destination *)
Definition moveaxis_order (n : nat) (source destination : list nat) : list nat :=
  fold_left (fun order ds => list_insert (fst ds) (snd ds) order)
            (sort_by pair_leb (combine destination source))
            (free_axes n source).

(** [jnp.moveaxis(a, source, destination)] *)
Definition moveaxis (a : arr) (source destination : list nat) : res arr :=
  if negb (forallb (fun i => Nat.ltb i (ndim a)) source
           && forallb (fun i => Nat.ltb i (ndim a)) destination) then Err ValueError
  else if negb (Nat.eqb (length source) (length destination)) then Err ValueError
  else transpose a (moveaxis_order (ndim a) source destination).

(** [jnp.tensordot(a, b, axes=(axa, axb))]: contracts axis [axa[k]] of [a] with axis [axb[k]] of
    [b]; the free axes of [a] come first, then those of [b] *)
Definition tensordot (a b : arr) (axa axb : list nat) : res arr :=
  if negb (Nat.eqb (length axa) (length axb)) then Err TypeError
  else if negb (forallb (fun i => Nat.ltb i (ndim a)) axa
                && forallb (fun i => Nat.ltb i (ndim b)) axb) then Err ValueError
  else if negb (nodupb axa && nodupb axb) then Err TypeError
  else if negb (list_eqb (restrict (shape a) axa) (restrict (shape b) axb)) then Err TypeError
  else
    let fa := free_axes (ndim a) axa in
    let fb := free_axes (ndim b) axb in
    Ok (build (restrict (shape a) fa ++ restrict (shape b) fb)
          (fun v =>
             let u := firstn (length fa) v in
             let z := skipn (length fa) v in
             csum (indices (restrict (shape a) axa))
                  (fun c => Cmul (get a (place (fa ++ axa) (u ++ c)))
                                 (get b (place (axb ++ fb) (c ++ z)))))).

(** [a @ b] on matrices *)
Definition matmul (a b : arr) : res arr :=
  match shape a, shape b with
  | [n; m], [m'; k] =>
      if Nat.eqb m m'
      then Ok (build [n; k] (fun v => csum (seq 0 m) (fun j => Cmul (get a [nth 0 v 0; j]) (get b [j; nth 1 v 0]))))
      else Err TypeError
  | _, _ => Err TypeError
  end.

(** [jnp.kron(a, b)] on matrices *)
Definition kron (a b : arr) : res arr :=
  match shape a, shape b with
  | [n; m], [p; q] =>
      Ok (build [n * p; m * q]
            (fun v => Cmul (get a [nth 0 v 0 / p; nth 1 v 0 / q])
                           (get b [nth 0 v 0 mod p; nth 1 v 0 mod q])))
  | _, _ => Err TypeError
  end.

(** [jnp.eye(n)] *)
Definition eye (n : nat) : arr :=
  build [n; n] (fun v => if Nat.eqb (nth 0 v 0) (nth 1 v 0) then C1 else C0).

(** [jnp.zeros(s)] *)
Definition zeros (s : list nat) : arr := build s (fun _ => C0).

(** a matrix given by its rows, [jnp.array([[...], ...])] *)
Definition matrix (rows : list (list C)) : arr :=
  mkArr [length rows; match rows with [] => 0 | r :: _ => length r end] (concat rows).

(** [a.at[-k:, -k:].set(b)] on an [m] x [m] matrix with [k <= m] *)
Definition set_corner (a : arr) (k : nat) (b : arr) : res arr :=
  match shape a with
  | [m; m'] =>
      if list_eqb (shape b) [k; k]
      then Ok (build [m; m']
                 (fun v => let i := nth 0 v 0 in let j := nth 1 v 0 in
                           if Nat.leb (m - k) i && Nat.leb (m' - k) j
                           then get b [i - (m - k); j - (m' - k)] else get a v))
      else Err ValueError
  | _ => Err IndexError
  end.

(** [a.at[jnp.ix_(idx, idx)].set(b)] on a matrix, [idx] strictly increasing *)
Definition set_ix (a : arr) (idx : list nat) (b : arr) : res arr :=
  match shape a with
  | [m; m'] =>
      if list_eqb (shape b) [length idx; length idx]
      then Ok (build [m; m']
                 (fun v => let i := nth 0 v 0 in let j := nth 1 v 0 in
                           if mem i idx && mem j idx
                           then get b [index_of i idx; index_of j idx] else get a v))
      else Err ValueError
  | _ => Err IndexError
  end.

(** [a.at[v].set(x)] for a full index [v]; an out-of-bounds index is dropped by JAX *)
Definition set_at (a : arr) (v : list nat) (x : C) : arr :=
  build (shape a) (fun w => if list_eqb w v then x else get a w).

(** [jnp.expand_dims(a, axis=range(k, k + n))]: [n] axes of length one starting at position [k] *)
Definition expand_dims (a : arr) (k n : nat) : arr :=
  mkArr (firstn k (shape a) ++ repeat 1 n ++ skipn k (shape a)) (data a).

(** broadcasting of two dimensions *)
Definition bdim (x y : nat) : option nat :=
  if Nat.eqb x y then Some x else if Nat.eqb x 1 then Some y else if Nat.eqb y 1 then Some x else None.
(** broadcasting of two shapes *)
Fixpoint bshape (s t : list nat) : option (list nat) :=
  match s, t with
  | [], [] => Some []
  | x :: s', y :: t' => match bdim x y, bshape s' t' with Some d, Some r => Some (d :: r) | _, _ => None end
  | _, _ => None
  end.
(** index into a broadcast operand: axes of length one are pinned to 0 *)
Fixpoint bindex (s v : list nat) : list nat :=
  match s, v with
  | d :: s', i :: v' => (if Nat.eqb d 1 then 0 else i) :: bindex s' v'
  | _, _ => []
  end.
(** [a * b] with broadcasting between arrays of equal rank *)
Definition bmul (a b : arr) : res arr :=
  match bshape (shape a) (shape b) with
  | Some s => Ok (build s (fun v => Cmul (get a (bindex (shape a) v)) (get b (bindex (shape b) v))))
  | None => Err TypeError
  end.

(** [jnp.dot(a, b)] of two vectors given by their entries *)
Definition vdot (a b : list C) : res C :=
  if Nat.eqb (length a) (length b)
  then Ok (csum (combine a b) (fun xy => Cmul (fst xy) (snd xy)))
  else Err TypeError.

(** a scalar as a 0-dimensional array *)
Definition scalar (c : C) : arr := mkArr [] [c].
