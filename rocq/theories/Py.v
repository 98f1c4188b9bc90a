(** * Python layer: exceptions, lists, sorting.

    These definitions model the Python built-ins the repository relies on (exceptions, [reduce],
    [sorted], [set], [list.insert], [np.argsort]).  They contain no proofs. *)
From Coq Require Import List Arith Bool.
Import ListNotations.

(** Exceptions that the modelled code can raise. *)
Inductive exn : Type :=
| ValueError | TypeError | KeyError | IndexError | AttributeError | NotImplementedError
| UnboundLocalError
| NotANumber (** not an exception: the float computation yields NaN, for which reals have no value *).

(** Result of a Python call: a value or a raised exception. *)
Inductive res (A : Type) : Type :=
| Ok : A -> res A
| Err : exn -> res A.
Arguments Ok {A} _.
Arguments Err {A} _.

(** a call whose first step may raise: the exception propagates (Python semantics, used throughout) *)
Definition bind {A B : Type} (m : res A) (f : A -> res B) : res B :=
  match m with Ok a => f a | Err e => Err e end.
(** notation for [bind] *)
Notation "'let!' x ':=' m 'in' f" := (bind m (fun x => f))
  (at level 200, x pattern, m at level 100, f at level 200, right associativity).

(** Evaluate a comprehension [tuple(f(x) for x in l)], left to right, stopping at the first
    exception. *)
Section MapM.
  Context {A B : Type} (f : A -> res B).
  Fixpoint mapM (l : list A) : res (list B) :=
    match l with
    | [] => Ok []
    | x :: l' => let! y := f x in let! ys := mapM l' in Ok (y :: ys)
    end.
End MapM.

(** [functools.reduce(f, l, init)] *)
Section FoldM.
  Context {A S : Type} (f : S -> A -> res S).
  Fixpoint foldM (l : list A) (s : S) : res S :=
    match l with
    | [] => Ok s
    | x :: l' => let! s' := f s x in foldM l' s'
    end.
End FoldM.

(** [functools.reduce(op, map(f, l))] without initial value: TypeError on an empty iterable; the
    map is lazy, so [f] is evaluated on each element just before it is combined *)
Definition reduce_map {A B : Type} (f : A -> res B) (op : B -> B -> res B) (l : list A) : res B :=
  match l with
  | [] => Err TypeError
  | x :: l' => let! b := f x in foldM (fun acc y => let! c := f y in op acc c) l' b
  end.

(** the call returned, it did not raise *)
Definition is_ok {A : Type} (m : res A) : bool := match m with Ok _ => true | Err _ => false end.

(** membership of an integer in a tuple / set *)
Definition mem (x : nat) (l : list nat) : bool := existsb (Nat.eqb x) l.

(** no repeated entries *)
Fixpoint nodupb (l : list nat) : bool :=
  match l with [] => true | x :: l' => negb (mem x l') && nodupb l' end.

(** [l1 == l2] on tuples of integers *)
Fixpoint list_eqb (l1 l2 : list nat) : bool :=
  match l1, l2 with
  | [], [] => true
  | x :: l1', y :: l2' => Nat.eqb x y && list_eqb l1' l2'
  | _, _ => false
  end.

(** position of [x] in [l] (length of [l] if absent) *)
Fixpoint index_of (x : nat) (l : list nat) : nat :=
  match l with [] => 0 | y :: l' => if Nat.eqb x y then 0 else S (index_of x l') end.

(** [sorted(l, key=...)] with the order given by [leb]; Python's sort is stable, and so is this
    insertion sort. *)
Fixpoint insert_by {A : Type} (leb : A -> A -> bool) (x : A) (l : list A) : list A :=
  match l with
  | [] => [x]
  | y :: l' => if leb x y then x :: y :: l' else y :: insert_by leb x l'
  end.
(** [sorted(l, key=...)], as above *)
Fixpoint sort_by {A : Type} (leb : A -> A -> bool) (l : list A) : list A :=
  match l with [] => [] | x :: l' => insert_by leb x (sort_by leb l') end.

(** [sorted(l)] on integers: operator_utils.py:263, 357, 358, 366; primitive.py:143 *)
Definition sorted (l : list nat) : list nat := sort_by Nat.leb l.

(** [set(l)] as a duplicate-free list; the first occurrence order here is irrelevant, every use
    either sorts the set or goes through an iteration-order oracle. *)
Fixpoint dedup (l : list nat) : list nat :=
  match l with [] => [] | x :: l' => if mem x l' then dedup l' else x :: dedup l' end.

(** [set(a) - set(b)] *)
Definition set_diff (a b : list nat) : list nat := filter (fun x => negb (mem x b)) (dedup a).

(** [set(a).issubset(set(b))] *)
Definition subsetb (a b : list nat) : bool := forallb (fun x => mem x b) a.

(** [np.argsort(keys)]: indices in increasing order of key (ties in increasing index order; no
    theorem depends on ties). *)
Definition argsort (keys : list nat) : list nat :=
  map snd (sort_by (fun a b => Nat.leb (fst a) (fst b)) (combine keys (seq 0 (length keys)))).

(** [l.insert(i, x)] *)
Definition list_insert {A : Type} (i : nat) (x : A) (l : list A) : list A :=
  firstn i l ++ x :: skipn i l.

(** lexicographic comparison of tuples of integers, [a <= b] in Python *)
Fixpoint lex_leb (a b : list nat) : bool :=
  match a, b with
  | [], _ => true
  | _ :: _, [] => false
  | x :: a', y :: b' => if Nat.ltb x y then true else if Nat.ltb y x then false else lex_leb a' b'
  end.

(** [[v[q] for q in p]] *)
Definition restrict (v p : list nat) : list nat := map (fun q => nth q v 0) p.

(** the tuple [w] with [w[p[k]] = v[k]] for every [k], when [p] is a permutation *)
Definition place (p v : list nat) : list nat :=
  map (fun j => nth (index_of j p) v 0) (seq 0 (length p)).

(** [[i for i in range(n) if i not in d]] *)
Definition free_axes (n : nat) (d : list nat) : list nat :=
  filter (fun i => negb (mem i d)) (seq 0 n).

(** is [p] a permutation of [range(n)]? *)
Definition permb (n : nat) (p : list nat) : bool :=
  Nat.eqb (length p) n && forallb (fun i => mem i p) (seq 0 n).
