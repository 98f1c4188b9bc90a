(** * Model of /repo/horqrux/apply.py for qubit indices that may be negative Python integers.

    Apply.v and ApplyOperator.v model the same code for non-negative indices.  Simplifications: dense states and density
    matrices only (no BCOO); a control argument is absent or a tuple of Python ints.  No proofs in this file. *)
From Coq Require Import List Arith ZArith Bool.
From Verif Require Import Cplx Py Ndarray OperatorUtils ApplyOperator Sparse Noise Gates Apply.
Import ListNotations.
Local Open Scope nat_scope.

(** jax's [canonicalize_axis(i, n)], called by [jnp.tensordot] and [jnp.moveaxis] on every axis *)
Definition canonicalize_axis (n : nat) (i : Z) : res nat :=
  if ((- Z.of_nat n <=? i) && (i <? Z.of_nat n))%Z
  then Ok (Z.to_nat (if (i <? 0)%Z then (i + Z.of_nat n)%Z else i))
  else Err ValueError.
(** [jnp.tensordot(a, b, axes=(axa, axb))] and [jnp.moveaxis(a, source, destination)] *)
Definition tensordot_z (a b : arr) (axa : list nat) (axb : list Z) : res arr :=
  if negb (Nat.eqb (length axa) (length axb)) then Err TypeError
  else let! axb := mapM (canonicalize_axis (ndim b)) axb in tensordot a b axa axb.
Definition moveaxis_z (a : arr) (source : list nat) (destination : list Z) : res arr :=
  let! destination := mapM (canonicalize_axis (ndim a)) destination in moveaxis a source destination.
(** [np.argsort(keys)] *)
Definition argsort_z (keys : list Z) : list nat :=
  map snd (sort_by (fun a b => Z.leb (fst a) (fst b)) (combine keys (seq 0 (length keys)))).
(** operator_utils.py:69-93 [permute_basis] *)
Definition permute_basis_z (operator : arr) (qubit_support : list Z) (inv : bool) : res arr :=
  let ordered_support := argsort_z qubit_support in
  let ranked_support := argsort ordered_support in
  let n_qubits := length qubit_support in
  if list_eqb ranked_support (seq 0 n_qubits) then Ok operator
  else
    let perm := ranked_support ++ map (Nat.add n_qubits) ranked_support in
    let perm := if inv then argsort perm else perm in
    transpose operator perm.

(** apply.py:79-85 and 157-163; a tuple of ints is a control unless it is empty (operator_utils.py:463-468) *)
Definition prepare_operator_z (operator : arr) (target : list Z) (control : option (list Z)) : res (arr * list Z) :=
  let! od :=
    match control with
    | Some (c :: cs) => let! o := controlled_block operator (length (c :: cs)) in Ok (o, (c :: cs) ++ target)
    | _ => Ok (operator, target)
    end in
  match shape (fst od) with
  | _ :: d1 :: _ => let! o := reshape (fst od) (repeat 2 (2 * Nat.log2 d1)) in Ok (o, snd od)
  | _ => Err IndexError
  end.
(** apply.py:53-90 *)
Definition apply_operator_z (state operator : arr) (target : list Z) (control : option (list Z)) : res arr :=
  let! od := prepare_operator_z operator target control in
  let op := fst od in
  let state_dims := snd od in
  let op_out_dims := seq (ndim op / 2) (ndim op - ndim op / 2) in
  let new_state_dims := seq 0 (length state_dims) in
  let! state := tensordot_z op state op_out_dims state_dims in
  moveaxis_z state new_state_dims state_dims.
(** [set(range(n)) - set(dims)]: the insertions into the set *)
Definition outside (n : nat) (dims : list Z) : list nat :=
  filter (fun q => negb (existsb (Z.eqb (Z.of_nat q)) dims)) (seq 0 n).
(** apply.py:137-179 *)
Definition apply_operator_dm_z (so : list nat -> list nat) (state operator : arr) (target : list Z) (control : option (list Z)) : res arr :=
  let! od := prepare_operator_z operator target control in
  let op := fst od in
  let state_dims := snd od in
  let op_out_dims := seq (ndim op / 2) (ndim op - ndim op / 2) in
  let op_in_dims := seq 0 (ndim op / 2) in
  let new_state_dims := seq 0 (length state_dims) in
  let support_perm := state_dims ++ map Z.of_nat (so (outside (ndim state / 2) state_dims)) in
  let! out := permute_basis_z state support_perm false in
  let! out := tensordot op out op_out_dims new_state_dims in
  let! out := dagger out in
  let! out := tensordot op out op_out_dims op_in_dims in
  let! out := dagger out in
  permute_basis_z out support_perm true.

(** operator_utils.py:339-378 [expand_operator] on the support range(n): a negative index is not in it, and the
    test [set(qubit_support) <= set(full_support)] fails *)
Definition expand_operator_z (operator : arr) (qubit_support : list Z) (full_support : list nat) : res arr :=
  if existsb (fun i => (i <? 0)%Z) qubit_support then Err ValueError
  else expand_operator operator (map Z.to_nat qubit_support) full_support.
(** apply.py:29-179, dispatch on the state *)
Definition apply_operator_state_z (w : world) (s : state) (m : mat) (t : list Z) (c : option (list Z)) : res state :=
  match s, m with
  | SDense a, MD o => let! r := apply_operator_z a o t c in Ok (SDense r)
  | SDM a, MD o => let! r := apply_operator_dm_z (set_iter w) a o t c in Ok (SDM r)
  | _, _ => Err TypeError
  end.
(** apply.py:271-275 *)
Definition apply_noise_z (s : state) (t : list Z) (full_support : list nat) (n : noise_inst) : res state :=
  let! ks := kraus n in
  let! kraus_ops := mapM (fun k => expand_operator_z k t full_support) ks in
  match s with
  | SDM a => let! r := apply_kraus_sum kraus_ops a full_support in Ok (SDM r)
  | _ => Err AttributeError
  end.
(** apply.py:243-276 *)
Definition apply_operator_with_noise_z (w : world) (s : state) (m : mat) (t : list Z) (c : option (list Z))
  (ns : option (list noise_inst)) : res state :=
  let! state_gate := apply_operator_state_z w s m t c in
  match ns with
  | None => Ok state_gate
  | Some l =>
      let! n := num_qubits state_gate in
      foldM (fun s n_i => apply_noise_z s t (seq 0 n) n_i) l state_gate
  end.

(** a gate (primitive.py:26-36) whose target and control qubits are given by integers; its other fields are those of [zfields] *)
Record zgate : Type := mkZGate { zfields : gate; ztarget : list Z; zcontrol : option (list Z) }.
Definition zplaced : Type := (mat * list Z * option (list Z))%type.

(** apply.py:279-295 [group_by_index]: tuples of integers are compared lexicographically *)
Fixpoint lex_leb_z (a b : list Z) : bool :=
  match a, b with
  | [], _ => true
  | _ :: _, [] => false
  | x :: a', y :: b' => if (x <? y)%Z then true else if (y <? x)%Z then false else lex_leb_z a' b'
  end.
Definition sort_batch_z (l : list zgate) : list zgate := sort_by (fun g h => lex_leb_z (ztarget g) (ztarget h)) l.
Definition controlled_z (c : option (list Z)) : bool := match c with Some (_ :: _) => true | _ => false end.
Fixpoint group_loop_z (sorted_gates gate_batch gates : list zgate) : list zgate :=
  match gates with
  | [] => match gate_batch with [] => sorted_gates | _ => sorted_gates ++ sort_batch_z gate_batch end
  | g :: gates' =>
      if negb (controlled_z (zcontrol g)) then group_loop_z sorted_gates (gate_batch ++ [g]) gates'
      else match gate_batch with
           | [] => group_loop_z (sorted_gates ++ [g]) [] gates'
           | _ => group_loop_z ((sorted_gates ++ sort_batch_z gate_batch) ++ [g]) [] gates'
           end
  end.
Definition group_by_index_z (gates : list zgate) : list zgate := group_loop_z [] [] gates.

(** [target == merged_target and control == merged_control] *)
Definition same_place (t t' : list Z) (c c' : option (list Z)) : bool :=
  (if list_eq_dec Z.eq_dec t t' then true else false) &&
  match c, c' with
  | None, None => true
  | Some l, Some l' => if list_eq_dec Z.eq_dec l l' then true else false
  | _, _ => false
  end.
(** apply.py:298-330 [merge_operators] *)
Fixpoint merge_loop_z (merged : list zplaced) (cur : zplaced) (rest : list zplaced) : res (list zplaced) :=
  match rest with
  | [] => Ok (merged ++ [cur])
  | (o, t, c) :: rest' =>
      let '(mo, mt, mc) := cur in
      if same_place t mt c mc then let! o' := mat_matmul mo o in merge_loop_z merged (o', mt, mc) rest'
      else merge_loop_z (merged ++ [cur]) (o, t, c) rest'
  end.
Definition merge_operators_z (ops : list zplaced) : res (list zplaced) :=
  if Nat.ltb (length ops) 2 then Ok ops
  else match rev ops with
       | [] => Ok ops
       | p :: rest => let! m := merge_loop_z [] p rest in Ok (rev m)
       end.

(** apply.py:345-384 [prepare_sequence_reduce] of a list of gates *)
Definition prepare_sequence_reduce_z (w : world) (gates : list zgate) (vals : values) (ot : op_type)
  (group_gates merge_ops : bool) : res (list zplaced * list (option (list noise_inst))) :=
  let gates := if group_gates then group_by_index_z gates else gates in
  let! ops := mapM (fun g => operator_of w ot (zfields g) vals) gates in
  match gates with
  | [] => Err TypeError
  | _ =>
      let pl := map (fun og => (fst og, ztarget (snd og), zcontrol (snd og))) (combine ops gates) in
      let ns := map (fun g => noise (zfields g)) gates in
      if no_noise ns && merge_ops then let! pl := merge_operators_z pl in Ok (pl, ns) else Ok (pl, ns)
  end.
(** apply.py:387-497 [apply_gates] of a list of gates *)
Definition apply_gates_z (w : world) (s : state) (gates : list zgate) (vals : values) (ot : op_type)
  (group_gates merge_ops : bool) : res state :=
  let! pn := prepare_sequence_reduce_z w gates vals ot group_gates merge_ops in
  let step s (p : zplaced) := let '(o, t, c) := p in apply_operator_state_z w s o t c in
  let noisy_step s (pn : zplaced * option (list noise_inst)) :=
    let '(o, t, c, n) := pn in apply_operator_with_noise_z w s o t c n in
  match s with
  | SDense a =>
      if negb (no_noise (snd pn)) then
        let! rho := density_mat a in
        foldM noisy_step (combine (fst pn) (snd pn)) (SDM rho)
      else foldM step (fst pn) s
  | SDM _ => foldM noisy_step (combine (fst pn) (snd pn)) s
  | SSparse _ => Err NotImplementedError
  end.
