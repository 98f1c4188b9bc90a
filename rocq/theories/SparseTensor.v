(** * Tensors of dense and sparse operations: model of the [tensor] methods of /repo/horqrux/primitives/primitive.py and
    /repo/horqrux/composite.  No proofs in this file. *)
From Coq Require Import String List Arith Bool Reals.
From Verif Require Import Cplx Py Ndarray OperatorUtils Sparse Noise Gates Apply Composite.
Import ListNotations.
Local Open Scope nat_scope.

(** primitive.py:107-127 [tensor]; [controlled] dispatches on the type of the matrix, [expand_operator] tests it *)
Definition mat_gate_tensor (w : world) (g : gate) (vals : values) (full_support : option (list nat)) : res mat :=
  let! m := unitary_of w g vals in
  let! m :=
    if is_controlled (control g)
    then match m with
         | MD u => let! c := controlled u (target g) (control g) in Ok (MD c)
         | MS u => let! c := b_controlled_on u (target g) (control g) in Ok (MS c)
         end
    else Ok m in
  match full_support with
  | None => Ok m
  | Some fs =>
      let! sup := gate_support g in
      match m with
      | MD u => let! e := expand_operator u sup fs in Ok (MD e)
      | MS u => let! e := b_expand_operator u sup fs in Ok (MS e)
      end
  end.

(** sequence.py:56 [jnp.matmul(a, b)]: not sparsified, it accepts no BCOO array *)
Definition jnp_matmul (a b : mat) : res mat :=
  match a, b with
  | MD x, MD y => let! r := matmul x y in Ok (MD r)
  | _, _ => Err TypeError
  end.
(** compose.py:112 [operator.add]: JAX does not implement BCOO + Array *)
Definition mat_add (a b : mat) : res mat :=
  match a, b with
  | MD x, MD y => let! r := add x y in Ok (MD r)
  | MS x, MS y => let! r := b_add x y in Ok (MS r)
  | _, _ => Err NotImplementedError
  end.
(** compose.py:64 [param * tensor] *)
Definition mat_scale (c : R) (m : mat) : mat :=
  match m with MD x => MD (scale (RtoC c) x) | MS x => MS (b_scale (RtoC c) x) end.

(** [tensor]: sequence.py:35-56, compose.py:49-64 and 91-112, primitive.py:107-127 *)
Fixpoint mat_tensor (w : world) (vals : values) (o : oper) (full_support : option (list nat)) : res mat :=
  match o with
  | OGate g => mat_gate_tensor w g vals full_support
  | OSeq l | OQC _ l _ =>
      let! fs := resolve_support w l full_support in
      reduce_map (fun o => mat_tensor w vals o (Some fs)) jnp_matmul l
  | OScale l p =>
      let! c := param_value p vals in
      let! fs := resolve_support w l full_support in
      let! t := reduce_map (fun o => mat_tensor w vals o (Some fs)) jnp_matmul l in
      Ok (mat_scale c t)
  | OAdd l | OObs l =>
      let! fs := resolve_support w l full_support in
      reduce_map (fun o => mat_tensor w vals o (Some fs)) mat_add l
  end.
