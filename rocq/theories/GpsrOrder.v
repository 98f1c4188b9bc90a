(** * Model of derivatives of any order through /repo/horqrux/differentiation/gpsr/analytical.py (docs/vqe.md: "with the expectation we
    can obtain higher-order derivatives").  No proofs in this file.

    [analytical_gpsr_fwd] (analytical.py:133-158) carries the rule [analytical_gpsr_jvp] (161-248), and the rule evaluates
    [analytical_gpsr_fwd] itself (226, 228), so differentiating the rule replaces these evaluations by their own tangents, and so on.
    The other operations of the rule are linear with constant coefficients.  Simplification: only the tangent of the highest order is
    returned, not the lower orders computed on the way. *)
From Coq Require Import List String Arith Bool Reals.
From Verif Require Import Cplx Py Ndarray OperatorUtils Sparse Noise Gates Apply Composite Conversion Shots Gpsr GpsrSecond.
Import ListNotations.
Local Open Scope nat_scope.

(** analytical.py:161-248 differentiated [order - 1] times: the derivative of order [order] in the directions [ts], one tangent per value
    each; [uuid k] gives the fresh names (gpsr_utils.py:141-161) drawn by the calls that compute a derivative of order [k].  In the repeated
    case the gates and values of the inner calls have temporary names (analytical.py:197-205), and so have their tangents. *)
Fixpoint gpsr_derivative (f : evaluator) (order : nat) (ts : list (list R)) (uuid : nat -> nat -> string) (split : nat -> nat -> nat -> nat)
  : evaluator :=
  fun ga vals key =>
    match order, ts with
    | O, _ => f ga vals key
    | S _, [] => Err TypeError
    | S k, t :: ts' =>
        let keys := map fst vals in
        let! inner := match ga, gpsr_branch ga keys with
                      | GMany gates, CaseRepeated => mapM (fun t' => temp_tangents gates keys t' (uuid order)) ts'
                      | _, _ => Ok ts'
                      end in
        let! grads := jvp_grads (gpsr_derivative f k inner uuid split) ga vals (uuid order) split key in
        Ok (jvp_contract grads t)
    end.
Definition analytical_gpsr_derivative (w : world) (st : state) (ga : gate_arg) (observables : list (list oper)) (vals : values)
  (ts : list (list R)) (uuid : nat -> nat -> string) : res (list R) :=
  gpsr_derivative (analytical_eval w st observables) (List.length ts) ts uuid no_split ga vals 0.
