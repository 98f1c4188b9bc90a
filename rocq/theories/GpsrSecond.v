(** * Model of the second derivative of /repo/horqrux/differentiation/gpsr/analytical.py (jax.hessian, as in
    /repo/tests/differentiation/test_gpsr.py:141-149).  No proofs in this file.

    [analytical_gpsr_fwd] (analytical.py:133-158) carries the rule [analytical_gpsr_jvp] (161-248), and the rule evaluates
    [analytical_gpsr_fwd] itself (183, 226, 228).  Differentiating the rule once more therefore replaces each of these evaluations by
    the tangent the rule gives for it; everything around them is linear arithmetic with constant coefficients. *)
From Coq Require Import List String Arith Bool Reals.
From Verif Require Import Cplx Py Ndarray OperatorUtils Sparse Noise Gates Apply Composite Conversion Shots Gpsr.
Import ListNotations.
Local Open Scope nat_scope.

(** the tangent of [analytical_gpsr_fwd] in the direction [tangents], as an evaluation *)
Definition tangent_eval (f : evaluator) (tangents : list R) (uuid : nat -> string) (split : nat -> nat -> nat -> nat) : evaluator :=
  fun ga vals key => let! r := gpsr_jvp f ga vals tangents uuid split key in Ok (snd r).

(** analytical.py:199-205: the value of a temporary name is that of the original name, and so is its tangent *)
Definition temp_tangents (gates : list gate) (keys : list string) (tangents : list R) (uuid : nat -> string) : res (list R) :=
  mapM (fun tp => lookup (combine keys tangents) (snd tp)) (temp_names gates keys uuid).

(** analytical.py:161-248 differentiated in the direction [t2]; [t1] are the tangents of the rule itself.  [uuid] gives the fresh names
    of the outer call, [uuid2] those of the inner ones. *)
Definition gpsr_second (f : evaluator) (ga : gate_arg) (vals : values) (t1 t2 : list R) (uuid uuid2 : nat -> string)
  (split : nat -> nat -> nat -> nat) (key : nat) : res (list R) :=
  let keys := map fst vals in
  let! inner := match ga, gpsr_branch ga keys with
                | GMany gates, CaseRepeated => temp_tangents gates keys t2 uuid
                | _, _ => Ok t2
                end in
  let! grads := jvp_grads (tangent_eval f inner uuid2 split) ga vals uuid split key in
  Ok (jvp_contract grads t1).
Definition analytical_gpsr_second (w : world) (st : state) (ga : gate_arg) (observables : list (list oper)) (vals : values)
  (t1 t2 : list R) (uuid uuid2 : nat -> string) : res (list R) :=
  gpsr_second (analytical_eval w st observables) ga vals t1 t2 uuid uuid2 no_split 0.
