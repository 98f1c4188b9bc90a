(** * Model of /repo/horqrux/differentiation/gpsr/{gpsr_utils,analytical,shots}.py.
    No proofs in this file.

    [jax.jit], [jax.lax.scan] and [jax.custom_jvp] are modelled by what they compute eagerly: a jitted
    call is the call, a scan is a loop, the jvp rule is the function registered with [defjvp].
    One effect of [jax.jit] is kept: it rejects arguments that are not pytrees, and [_PHASE], a
    subclass of the registered class Parametric, is itself not registered. *)
From Coq Require Import List String Arith Bool Reals.
From Verif Require Import Cplx Py Ndarray OperatorUtils Sparse Noise Gates Apply Composite Conversion Shots.
Import ListNotations.
Local Open Scope nat_scope.

(** gpsr_utils.py:14-25 [to_shift]: whatever the class of the gate, the result is a Parametric.
    A gate without [param] has [sparse] in last position; the code never shifts one (TypeError stands for it). *)
Definition to_shift (g : gate) (shift_value : R) : res gate :=
  match gate_flatten g with
  | AuxParam b p s => gate_unflatten KParam (AuxParam b p (s + shift_value)%R)
  | AuxPrim _ => Err TypeError
  end.

(** [gate.is_parametric and gate.param == name] *)
Definition uses_param (name : string) (g : gate) : bool :=
  is_parametric g && match gparam g with PName s => String.eqb s name | PNum _ => false end.

(** gpsr_utils.py:28-44 [prepare_param_gates_seq], at one name: the indices of the gates using it *)
Definition param_indices (gates : list gate) (name : string) : list nat :=
  map fst (filter (fun ig => uses_param name (snd ig)) (combine (seq 0 (List.length gates)) gates)).

(** gpsr_utils.py:47-62 [alter_gate_sequence] *)
Definition alter_gate_sequence (gates : list gate) (ind_alter : nat) (shift_val : R) : res (list gate) :=
  match nth_error gates ind_alter with
  | None => Err IndexError
  | Some g =>
      let! g' := to_shift g shift_val in
      let upper := Nat.min (ind_alter + 1) (List.length gates) in
      Ok (firstn ind_alter gates ++ [g'] ++ skipn upper gates)
  end.

(** gpsr_utils.py:65-79 [initialize_gpsr_ingredients] *)
Definition shift_pi2 : R := (PI / 2)%R.
(** gpsr_utils.py:77: the spectral gap 2.0 *)
Definition default_gap : R := 2%R.

(** gpsr_utils.py:82-98 [extract_gate_names]: Parametric and _PHASE have [param] *)
Definition extract_gate_names (gates : list gate) : list string :=
  flat_map (fun g => match gclass g, gparam g with
                     | KParam, PName s | KPhase, PName s => [s]
                     | _, _ => [] end) gates.

(** gpsr_utils.py:101-116 [spectral_gap_from_gates]: the dictionary holds indices, and an int has no
    attribute [spectral_gap] *)
Definition spectral_gap_from_gates (gates : list gate) (names : list string) : res (list R) :=
  mapM (fun n => match param_indices gates n with [] => Err IndexError | _ => Err AttributeError end) names.

(** gpsr_utils.py:119-138 [new_named_parametric] *)
Definition new_named_parametric (g : gate) (new_name : string) : res gate :=
  match gate_flatten g with
  | AuxParam b _ s => gate_unflatten KParam (AuxParam b (PName new_name) s)
  | AuxPrim _ => Err TypeError
  end.

(** gpsr_utils.py:141-161 [create_renamed_operators]; gate number [i] gets the fresh name [uuid i] *)
Definition in_names (names : list string) (g : gate) : bool :=
  is_parametric g && match gparam g with PName s => existsb (String.eqb s) names | PNum _ => false end.
(** gpsr_utils.py:141-161 [create_renamed_operators] *)
Definition create_renamed_operators (gates : list gate) (names : list string) (uuid : nat -> string)
  : res (list gate) :=
  mapM (fun ig => if in_names names (snd ig) then new_named_parametric (snd ig) (uuid (fst ig)) else Ok (snd ig))
       (combine (seq 0 (List.length gates)) gates).

(** analytical.py:26-54 [analytical_expectation]; stacking no outputs raises ValueError *)
Definition analytical_expectation (w : world) (st : state) (gates : gate_arg) (observables : list (list oper))
  (vals : values) : res (list R) :=
  let! outputs := mapM (fun l => let! out := apply_gates w st gates vals UNITARY false true in
                                 ad_single w out l vals) observables in
  match outputs with [] => Err ValueError | _ => Ok outputs end.

(** the two evaluations GPSR is built on: [analytical_expectation] and [finite_shots].  The last argument
    is the random key (ignored by the former). *)
Definition evaluator : Type := gate_arg -> values -> nat -> res (list R).

(** analytical.py:57 and gpsr/shots.py:24: the jitted evaluations reject gates that are not pytrees *)
Definition gate_list (ga : gate_arg) : list gate := match ga with GOne g => [g] | GMany l => l end.
(** parametric.py:201: _PHASE is not registered as a pytree *)
Definition is_pytree (g : gate) : bool := match gclass g with KPhase => false | _ => true end.
(** analytical.py:57, gpsr/shots.py:24: [jax.jit] of an evaluation *)
Definition jitted (f : evaluator) : evaluator :=
  fun ga vals key => if forallb is_pytree (gate_list ga) then f ga vals key else Err TypeError.

(** analytical.py:93-97, 117-121, 229: [gap * (f_up - f_down) / (4 * sin(gap * shift / 2))]; a zero denominator gives NaN *)
Definition shift_rule (gap fu fd : R) : res R :=
  let den := (4 * sin (gap * shift_pi2 / 2))%R in
  if Req_EM_T den 0 then Err NotANumber else Ok (gap * (fu - fd) / den)%R.
(** the same for a vector of expectation values *)
Definition shift_rules (gap : R) (fu fd : list R) : res (list R) :=
  mapM (fun ud => shift_rule gap (fst ud) (snd ud)) (combine fu fd).

(** analytical.py:87-88, 90-91: [values[name] + delta] in a copy of the dictionary *)
Definition bump (vals : values) (name : string) (delta : R) : res values :=
  let! v := lookup vals name in
  let! x := num v in
  Ok (dict_set vals name (VNum (x + delta)%R)).

(** elementwise sum of gradient vectors *)
Definition vadd (a b : list R) : list R := map (fun xy => (fst xy + snd xy)%R) (combine a b).

(** analytical.py:101-127 and 190-212, gpsr/shots.py:73-108 and 178-201: [len(gate_names) > len(val_keys)] and [max(map(len, ...)) > 1]: the three cases of the code *)
Inductive gpsr_case : Type := CaseSimple | CaseRepeated | CaseBroken (e : exn).
(** analytical.py:101-127 and 190-212, gpsr/shots.py:73-108 and 178-201: which case applies *)
Definition gpsr_branch (ga : gate_arg) (keys : list string) : gpsr_case :=
  match ga with
  | GOne _ => CaseSimple
  | GMany gates =>
      if Nat.ltb (List.length keys) (List.length (extract_gate_names gates)) then
        match keys with
        | [] => CaseBroken ValueError
        | _ =>
            if Nat.ltb 1 (list_max (map (fun n => List.length (param_indices gates n)) keys))
            then CaseRepeated
            else match spectral_gap_from_gates gates keys with
                 | Err e => CaseBroken e
                 | Ok _ => CaseSimple
                 end
        end
      else CaseSimple
  end.

(** analytical.py:86-98, gpsr/shots.py:56-69 [jvp_component]; [up]/[down] are the two random keys *)
Definition jvp_component (f : evaluator) (ga : gate_arg) (vals : values) (split : nat -> nat -> nat -> nat)
  (name : string) (key : nat) : res (list R) :=
  let! up_val := bump vals name shift_pi2 in
  let! f_up := f ga up_val (split key 2 0) in
  let! down_val := bump vals name (- shift_pi2) in
  let! f_down := f ga down_val (split key 2 1) in
  shift_rules default_gap f_up f_down.

(** analytical.py:111-121, gpsr/shots.py:84-99 [shift_jvp] *)
Definition shift_jvp (f : evaluator) (gates : list gate) (vals : values) (split : nat -> nat -> nat -> nat)
  (ind key : nat) : res (list R) :=
  let! gap := match nth_error gates ind with None => Err IndexError | Some g => spectral_gap g end in
  let! gates_up := alter_gate_sequence gates ind shift_pi2 in
  let! f_up := f (GMany gates_up) vals (split key 2 0) in
  let! gates_down := alter_gate_sequence gates ind (- shift_pi2) in
  let! f_down := f (GMany gates_down) vals (split key 2 1) in
  shift_rules gap f_up f_down.

(** analytical.py:108-123, gpsr/shots.py:80-103 [jvp_component_repeated_param].  The Python sum over no
    gate is the integer 0, which cannot be stacked with the vectors of the other parameters. *)
Definition jvp_component_repeated (f : evaluator) (gates : list gate) (vals : values) (split : nat -> nat -> nat -> nat)
  (name : string) (key : nat) : res (list R) :=
  let inds := param_indices gates name in
  let! gs := mapM (fun ki => shift_jvp f gates vals split (snd ki) (split key (List.length inds) (fst ki)))
                  (combine (seq 0 (List.length inds)) inds) in
  match gs with [] => Err ValueError | g :: gs' => Ok (fold_left vadd gs' g) end.

(** analytical.py:60-130 [analytical_gpsr_bwd] and gpsr/shots.py:27-110 [finite_shots_gpsr_backward]
    (with [f] the respective evaluation): per parameter, the gradient summed over the observables *)
Definition gpsr_bwd (f : evaluator) (ga : gate_arg) (vals : values) (split : nat -> nat -> nat -> nat) (key : nat)
  : res (list R) :=
  let keys := map fst vals in
  let f := jitted f in
  let component := match ga, gpsr_branch ga keys with
                   | GMany gates, CaseRepeated => fun n k => jvp_component_repeated f gates vals split n k
                   | _, CaseBroken e => fun _ _ => Err e
                   | _, _ => fun n k => jvp_component f ga vals split n k
                   end in
  match gpsr_branch ga keys, keys with
  | CaseBroken e, _ => Err e
  | _, [] => Err ValueError
  | _, _ =>
      let! gs := mapM (fun kn => component (snd kn) (split key (List.length keys) (fst kn)))
                      (combine (seq 0 (List.length keys)) keys) in
      Ok (map (fun g => fold_right Rplus 0%R g) gs)
  end.

(** analytical.py:222-230, gpsr/shots.py:211-221 [jvp_caller], one step of the scan: shift the value of [name] *)
Definition jvp_step (f : evaluator) (ga : gate_arg) (vals : values) (split : nat -> nat -> nat -> nat)
  (name : string) (gap : R) (key : nat) : res (list R) :=
  let! up_val := bump vals name shift_pi2 in
  let! f_up := f ga up_val (split key 2 0) in
  let! down_val := bump vals name (- shift_pi2) in
  let! f_down := f ga down_val (split key 2 1) in
  shift_rules gap f_up f_down.

(** analytical.py:195-205, gpsr/shots.py:183-193: the temporary names of the repeated case, with the original
    name of each, in the order of the dictionary [values_map] *)
Definition temp_names (gates : list gate) (keys : list string) (uuid : nat -> string) : list (string * string) :=
  flat_map (fun p => map (fun i => (uuid i, p)) (param_indices gates p)) keys.
(** analytical.py:206-210, gpsr/shots.py:194-198: the spectral gap recorded for an original name: that of the last gate using it *)
Definition last_gap (gates : list gate) (inds : list nat) : res R :=
  match rev inds with
  | [] => Err KeyError
  | i :: _ => match nth_error gates i with None => Err IndexError | Some g => spectral_gap g end
  end.

(** analytical.py:161-248 [analytical_gpsr_jvp] and gpsr/shots.py:145-241 [finite_shots_jvp].  [f] is not jitted
    here.  The result is the tangent: for each observable, the sum over the parameters of gradient * tangent.
    The gradients per parameter are returned by [jvp_grads]. *)
Definition jvp_grads (f : evaluator) (ga : gate_arg) (vals : values) (uuid : nat -> string)
  (split : nat -> nat -> nat -> nat) (key : nat) : res (list (list R)) :=
  let keys := map fst vals in
  match gpsr_branch ga keys with
  | CaseBroken e => Err e
  | CaseSimple =>
      let! _ := mapM (fun kv => num (snd kv)) vals in
      match keys with
      | [] => Err ValueError
      | _ => mapM (fun kn => jvp_step f ga vals split (snd kn) default_gap (split key (List.length keys) (fst kn)))
                  (combine (seq 0 (List.length keys)) keys)
      end
  | CaseRepeated =>
      let gates := gate_list ga in
      let! new_gates := create_renamed_operators gates keys uuid in
      let values_map := temp_names gates keys uuid in
      let! new_values := mapM (fun tp => let! v := lookup vals (snd tp) in
                                         let! x := num v in Ok (fst tp, VNum x)) values_map in
      let! gaps := mapM (fun tp => last_gap new_gates (param_indices gates (snd tp))) values_map in
      let n := List.length values_map in
      let! grads := mapM (fun ktg => let '(k, (t, _), gap) := ktg in
                                     jvp_step f (GMany new_gates) new_values split t gap (split key n k))
                         (combine (combine (seq 0 n) values_map) gaps) in
      mapM (fun name =>
              match map snd (filter (fun tg => String.eqb (snd (fst tg)) name) (combine values_map grads)) with
              | [] => Err ValueError
              | g :: gs => Ok (fold_left vadd gs g)
              end) keys
  end.

(** [(stack(grads) * tangents.reshape((-1, 1))).sum(axis=0)] *)
Definition jvp_contract (grads : list (list R)) (tangents : list R) : list R :=
  match map (fun gt => map (fun x => (x * snd gt)%R) (fst gt)) (combine grads tangents) with
  | [] => []
  | g :: gs => fold_left vadd gs g
  end.
(** analytical.py:161-248, gpsr/shots.py:145-241: the forward rule *)
Definition gpsr_jvp (f : evaluator) (ga : gate_arg) (vals : values) (tangents : list R) (uuid : nat -> string)
  (split : nat -> nat -> nat -> nat) (key : nat) : res (list R * list R) :=
  let! fwd := f ga vals key in
  let! grads := jvp_grads f ga vals uuid split key in
  Ok (fwd, jvp_contract grads tangents).

(** the analytical instances: no randomness *)
Definition analytical_eval (w : world) (st : state) (observables : list (list oper)) : evaluator :=
  fun ga vals _ => analytical_expectation w st ga observables vals.
(** the analytical instances use no random keys *)
Definition no_split (k n i : nat) : nat := 0.
(** analytical.py:60-131 [analytical_gpsr_bwd] *)
Definition analytical_gpsr_bwd (w : world) (st : state) (ga : gate_arg) (observables : list (list oper))
  (vals : values) : res (list R) :=
  gpsr_bwd (analytical_eval w st observables) ga vals no_split 0.
(** analytical.py:161-248 [analytical_gpsr_jvp] *)
Definition analytical_gpsr_jvp (w : world) (st : state) (ga : gate_arg) (observables : list (list oper))
  (vals : values) (tangents : list R) (uuid : nat -> string) : res (list R * list R) :=
  gpsr_jvp (analytical_eval w st observables) ga vals tangents uuid no_split 0.

(** the finite-shots instances *)
Definition shots_eval (w : world) (st : state) (observables : list (list oper)) (n_shots : nat) : evaluator :=
  fun ga vals key => finite_shots w st ga observables vals n_shots key.
(** gpsr/shots.py:27-110 [finite_shots_gpsr_backward] *)
Definition finite_shots_gpsr_bwd (w : world) (st : state) (ga : gate_arg) (observables : list (list oper))
  (vals : values) (n_shots : nat) (split : nat -> nat -> nat -> nat) (key : nat) : res (list R) :=
  gpsr_bwd (shots_eval w st observables n_shots) ga vals split key.
(** gpsr/shots.py:113-241 [finite_shots_fwd] with its rule [finite_shots_jvp] *)
Definition finite_shots_gpsr_jvp (w : world) (st : state) (ga : gate_arg) (observables : list (list oper))
  (vals : values) (tangents : list R) (n_shots : nat) (uuid : nat -> string) (split : nat -> nat -> nat -> nat) (key : nat)
  : res (list R * list R) :=
  gpsr_jvp (shots_eval w st observables n_shots) ga vals tangents uuid split key.
