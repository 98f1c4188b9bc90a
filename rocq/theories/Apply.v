(** * Model of /repo/horqrux/apply.py:243-497 (and the dispatch of [apply_operator]).
    No proofs in this file. *)
From Coq Require Import List Arith Bool.
From Verif Require Import Cplx Py Ndarray OperatorUtils ApplyOperator Sparse Noise Gates.
Import ListNotations.
Local Open Scope nat_scope.

(** operator_utils.py:49 [State]: a dense array, a BCOO array or a DensityMatrix *)
Inductive state : Type := SDense (a : arr) | SSparse (b : bcoo) | SDM (a : arr).

(** operator_utils.py:536-556 [num_qubits]; not registered for BCOO *)
Definition num_qubits (s : state) : res nat :=
  match s with
  | SDense a => Ok (num_qubits_array a)
  | SDM a => Ok (num_qubits_dm a)
  | SSparse _ => Err NotImplementedError
  end.

(** apply.py:29-179: dispatch of [apply_operator] on the type of the state.  [jnp.tensordot] rejects a
    BCOO operator with a dense state; the sparsified product of a dense operator and a BCOO state
    is a dense array. *)
Definition apply_operator_state (w : world) (s : state) (m : mat) (t : list nat) (c : cspec) : res state :=
  match s, m with
  | SDense a, MD o => let! r := apply_operator a o t c in Ok (SDense r)
  | SDense _, MS _ => Err TypeError
  | SSparse b, MS o => let! r := b_apply_operator b o t c in Ok (SSparse r)
  | SSparse b, MD o => let! r := apply_operator (todense b) o t c in Ok (SDense r)
  | SDM a, MD o => let! r := apply_operator_dm (set_iter w) a o t c in Ok (SDM r)
  | SDM _, MS _ => Err TypeError
  end.

(** apply.py:271-275: one pass of the noise loop *)
Definition apply_noise (s : state) (t : list nat) (full_support : list nat) (n : noise_inst) : res state :=
  let! ks := kraus n in
  let! kraus_ops := mapM (fun k => expand_operator k t full_support) ks in
  match s with
  | SDM a => let! r := apply_kraus_sum kraus_ops a full_support in Ok (SDM r)
  | _ => Err AttributeError
  end.

(** apply.py:243-276 [apply_operator_with_noise] *)
Definition apply_operator_with_noise (w : world) (s : state) (m : mat) (t : list nat) (c : cspec)
  (ns : option (list noise_inst)) : res state :=
  let! state_gate := apply_operator_state w s m t c in
  match ns with
  | None => Ok state_gate
  | Some l =>
      let! n := num_qubits state_gate in
      foldM (fun s n_i => apply_noise s t (seq 0 n) n_i) l state_gate
  end.

(** apply.py:279-295 [group_by_index] *)
Definition sort_batch (l : list gate) : list gate :=
  sort_by (fun g h => lex_leb (target g) (target h)) l.
(** apply.py:283-295: the loop of [group_by_index] *)
Fixpoint group_loop (sorted_gates gate_batch gates : list gate) : list gate :=
  match gates with
  | [] => match gate_batch with [] => sorted_gates | _ => sorted_gates ++ sort_batch gate_batch end
  | g :: gates' =>
      if negb (is_controlled (control g)) then group_loop sorted_gates (gate_batch ++ [g]) gates'
      else match gate_batch with
           | [] => group_loop (sorted_gates ++ [g]) [] gates'
           | _ => group_loop ((sorted_gates ++ sort_batch gate_batch) ++ [g]) [] gates'
           end
  end.
(** apply.py:279-295 [group_by_index] *)
Definition group_by_index (gates : list gate) : list gate := group_loop [] [] gates.

(** [m @ n]; a product with one dense factor is dense *)
Definition mat_matmul (m n : mat) : res mat :=
  match m, n with
  | MD a, MD b => let! r := matmul a b in Ok (MD r)
  | MS a, MS b => let! r := b_matmul a b in Ok (MS r)
  | MD a, MS b => let! r := matmul a (todense b) in Ok (MD r)
  | MS a, MD b => let! r := matmul (todense a) b in Ok (MD r)
  end.

(** [control == merged_control] on tuples (or None); [np.int64(1) == 1] holds *)
Definition qidx_eqb (a b : qidx) : bool :=
  match a, b with
  | QNone, QNone => true
  | QNone, _ | _, QNone => false
  | QInt x, QInt y | QInt x, QNp y | QNp x, QInt y | QNp x, QNp y => Nat.eqb x y
  end.
(** apply.py:319: [control == merged_control] on tuples *)
Fixpoint qidx_list_eqb (a b : list qidx) : bool :=
  match a, b with
  | [], [] => true
  | x :: a', y :: b' => qidx_eqb x y && qidx_list_eqb a' b'
  | _, _ => false
  end.
(** apply.py:319: [control == merged_control] on tuples or None *)
Definition cspec_eqb (a b : cspec) : bool :=
  match a, b with
  | CNone, CNone => true
  | CTup x, CTup y => qidx_list_eqb x y
  | _, _ => false
  end.

(** an operator with the qubits it acts on *)
Definition placed : Type := (mat * list nat * cspec)%type.

(** apply.py:316-330, the loop of [merge_operators] over the reversed sequence *)
Fixpoint merge_loop (merged : list placed) (cur : placed) (rest : list placed) : res (list placed) :=
  match rest with
  | [] => Ok (merged ++ [cur])
  | (o, t, c) :: rest' =>
      let '(mo, mt, mc) := cur in
      if list_eqb t mt && cspec_eqb c mc then
        let! o' := mat_matmul mo o in merge_loop merged (o', mt, mc) rest'
      else merge_loop (merged ++ [cur]) (o, t, c) rest'
  end.
(** apply.py:298-330 [merge_operators] *)
Definition merge_operators (ops : list placed) : res (list placed) :=
  if Nat.ltb (length ops) 2 then Ok ops
  else match rev ops with
       | [] => Ok ops
       | p :: rest => let! m := merge_loop [] p rest in Ok (rev m)
       end.

(** the [gate] argument of [apply_gates]: one gate, or an iterable of gates *)
Inductive gate_arg : Type := GOne (g : gate) | GMany (l : list gate).

(** [noise == [None] * len(noise)] *)
Definition no_noise (l : list (option (list noise_inst))) : bool :=
  forallb (fun n => match n with None => true | Some _ => false end) l.

(** apply.py:345-384 [prepare_sequence_reduce]; [reduce(add, [])] raises TypeError *)
Definition prepare_sequence_reduce (w : world) (ga : gate_arg) (vals : values) (ot : op_type)
  (group_gates merge_ops : bool) : res (list placed * list (option (list noise_inst))) :=
  match ga with
  | GOne g =>
      let! o := operator_of w ot g vals in
      Ok ([(o, target g, control g)], [noise g])
  | GMany gates =>
      let gates := if group_gates then group_by_index gates else gates in
      let! ops := mapM (fun g => operator_of w ot g vals) gates in
      match gates with
      | [] => Err TypeError
      | _ =>
          let pl := map (fun og => (fst og, target (snd og), control (snd og))) (combine ops gates) in
          let ns := map noise gates in
          if no_noise ns && merge_ops then let! pl := merge_operators pl in Ok (pl, ns) else Ok (pl, ns)
      end
  end.

(** apply.py:333-342 and 387-497 [apply_gates] *)
Definition apply_gates (w : world) (s : state) (ga : gate_arg) (vals : values) (ot : op_type)
  (group_gates merge_ops : bool) : res state :=
  let! pn := prepare_sequence_reduce w ga vals ot group_gates merge_ops in
  let step s (p : placed) := let '(o, t, c) := p in apply_operator_state w s o t c in
  let noisy_step s (pn : placed * option (list noise_inst)) :=
    let '(o, t, c, n) := pn in apply_operator_with_noise w s o t c n in
  match s with
  | SDense a =>
      if negb (no_noise (snd pn)) then
        let! rho := density_mat a in
        foldM noisy_step (combine (fst pn) (snd pn)) (SDM rho)
      else foldM step (fst pn) s
  | SSparse _ =>
      if negb (no_noise (snd pn)) then Err NotImplementedError
      else foldM step (fst pn) s
  | SDM _ => foldM noisy_step (combine (fst pn) (snd pn)) s
  end.
