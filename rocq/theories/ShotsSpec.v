(** * Vocabulary for the properties of finite-shot estimates.  No proofs in this file. *)
From Coq Require Import String List Arith Bool Reals Permutation.
From Verif Require Import Cplx Py Ndarray OperatorUtils Sparse Noise Gates Apply Composite Spec GateSpec PropSpec SampleSpec ExpectSpec.
Import ListNotations.
Local Open Scope nat_scope.

(** the diagonal matrix with the entries [ev] *)
Definition diag_op (ev : list R) : op :=
  fun x y => if list_eq_dec Nat.eq_dec x y then RtoC (nth (binval x) ev 0%R) else C0.
(** the columns of the matrix [V] are an orthonormal basis of eigenvectors of [K], with the eigenvalues [ev] *)
Definition eigenbasis (n : nat) (K : op) (ev : list R) (V : op) : Prop :=
  length ev = 2 ^ n /\ unitary n V /\ keq n (kmul n K V) (kmul n V (diag_op ev)).

(** What is assumed of jnp.linalg.eigh on the matrix of the observable [K] and of jnp.linalg.inv on the matrix of
    eigenvectors it returns. *)
Definition diagonalised (w : world) (n : nat) (K : op) (ev : list R) (V : arr) : Prop :=
  (forall m, is_matrix n m -> keq n (entry m) K -> eigh w m = (ev, V)) /\
  is_matrix n V /\ eigenbasis n K ev (entry V) /\
  is_matrix n (inv_mat w V) /\ keq n (kmul n (entry (inv_mat w V)) (entry V)) kid.

(** the columns of [V'] are the columns of [V] in another order *)
Definition same_columns (n : nat) (V V' : op) : Prop :=
  exists p, Permutation (map p (bitstrings n)) (bitstrings n) /\
    forall x y, In x (bitstrings n) -> In y (bitstrings n) -> V' x y = V x (p y).

(** average of a list of numbers, mean of a distribution over the values [a] *)
Definition average (l : list R) : R := (rsum l (fun x => x) / INR (length l))%R.
Definition weighted (probs a : list R) : R := rsum (combine probs a) (fun pa => (fst pa * snd pa)%R).
Definition is_distribution (probs : list R) : Prop := Forall (fun p => (0 <= p)%R) probs /\ rsum probs (fun p => p) = 1%R.
(** the values at the drawn indices *)
Definition values_at (a : list R) (draws : list nat) : list R := map (fun i => nth i a 0%R) draws.

(** a normalised state vector, resp. a positive density matrix of trace 1 *)
Definition physical (n : nat) (s : state) : Prop :=
  match s with
  | SDense a => norm2 n (amp a) = 1%R
  | SDM a => positive n (rho_entry a) /\ ktrace n (rho_entry a) = C1
  | SSparse _ => False
  end.

(** [jointly_measured w n vals V ls Ks evs]: the observables [ls] are the operators [Ks], with eigenvalues [evs], and the
    eigenvectors eigh returns for each of them are the columns of [V] up to their order *)
Inductive jointly_measured (w : world) (n : nat) (vals : values) (V : arr) : list (list oper) -> list op -> list (list R) -> Prop :=
| jm_nil : jointly_measured w n vals V [] [] []
| jm_cons : forall l K ev V' ls Ks evs,
    observable_on w n vals false l K -> diagonalised w n K ev V' -> same_columns n (entry V) (entry V') ->
    jointly_measured w n vals V ls Ks evs -> jointly_measured w n vals V (l :: ls) (K :: Ks) (ev :: evs).

(** measuring a state in the orthonormal basis formed by the columns of [V]: the probability <v_y|rho v_y> of each of
    them, and the value <v_y|K v_y> of the observable [K] there (its eigenvalue if v_y is an eigenvector) *)
Definition outcome_distribution (n : nat) (V : op) (s : state) : list R :=
  map (fun y => re (qform n (density_of s) (fun x => V x y))) (bitstrings n).
Definition eigenvalues_in (n : nat) (V : op) (K : op) : list R :=
  map (fun y => re (qform n K (fun x => V x y))) (bitstrings n).

(** ** random draws *)
(** a function that draws: key, probabilities, number of draws *)
Definition sampler : Type := nat -> list R -> nat -> list nat.
(** the world [w] with another generator of random draws *)
Definition with_choice (w : world) (ch : sampler) : world :=
  mkWorld (set_iter w) (expm w) (eigh w) (inv_mat w) ch.
(** a finite probability space of generators, and the expected value of a number that depends on the generator *)
Definition space : Type := list (R * sampler).
Definition expected (Om : space) (f : sampler -> R) : R := rsum Om (fun qc => (fst qc * f (snd qc))%R).
(** 1 if the [j]-th draw is [i], otherwise 0 *)
Definition drawn (key : nat) (p : list R) (k j i : nat) (ch : sampler) : R :=
  if Nat.eqb (nth j (ch key p k) (length p)) i then 1%R else 0%R.
(** the generator is asked with [key] for [k] draws from the distribution [p]: it returns [k] indices, and each of
    them is [i] with probability [p_i] *)
Definition fair_sampling (Om : space) (key : nat) (p : list R) (k : nat) : Prop :=
  rsum Om fst = 1%R /\ Forall (fun qc => (0 <= fst qc)%R) Om /\
  Forall (fun qc => length (snd qc key p k) = k /\ Forall (fun i => i < length p) (snd qc key p k)) Om /\
  forall j i, j < k -> i < length p -> expected Om (drawn key p k j i) = nth i p 0%R.
(** different draws are independent (in pairs) *)
Definition independent_draws (Om : space) (key : nat) (p : list R) (k : nat) : Prop :=
  forall j j' i i', j < k -> j' < k -> j <> j' -> i < length p -> i' < length p ->
    expected Om (fun ch => drawn key p k j i ch * drawn key p k j' i' ch)%R = (nth i p 0 * nth i' p 0)%R.

(** ** Pauli Z and X on one qubit *)
Definition oZ : op := ksum [gate_op Z_matrix [] [0]].
Definition oX : op := ksum [gate_op X_matrix [] [0]].
(** what eigh returns on them: eigenvalues -1 and 1, matrices of eigenvectors *)
Definition hr : R := (1 / sqrt 2)%R.
Definition VZ : arr := mkArr [2; 2] [C0; C1; C1; C0].
Definition VX : arr := mkArr [2; 2] [RtoC (- hr); RtoC hr; RtoC hr; RtoC hr].
Definition pm1 : list R := [(-1)%R; 1%R].
