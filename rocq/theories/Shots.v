(** * Model of /repo/horqrux/shots.py and of [sample_from_probs] (operator_utils.py:492-507).
    No proofs in this file. *)
From Coq Require Import List String Arith Bool Reals.
From Verif Require Import Cplx Py Ndarray OperatorUtils ApplyOperator Sparse Noise Gates Apply Composite.
Import ListNotations.
Local Open Scope nat_scope.

(** [m @ v] for a matrix and a vector given by its entries *)
Definition matvec (m : arr) (v : list C) : res (list C) :=
  match shape m with
  | [r; c] =>
      if Nat.eqb c (List.length v)
      then Ok (map (fun i => csum (seq 0 c) (fun j => Cmul (get m [i; j]) (nth j v C0))) (seq 0 r))
      else Err TypeError
  | _ => Err TypeError
  end.

(** shots.py:34-48 [eigen_probabilities] of a state vector *)
Definition eigen_probabilities_array (st eigvecs : arr) : res (list R) :=
  let! d := transpose eigvecs [1; 0] in
  let! ip := matvec (conj d) (data st) in
  Ok (map (fun z => (Cabs z * Cabs z)%R) ip).

(** shots.py:51-66 [eigen_probabilities] of a density matrix *)
Definition eigen_probabilities_dm (rho eigvecs : arr) : res (list R) :=
  let! d := transpose eigvecs [1; 0] in
  let! m := matmul (conj d) rho in
  let! m := matmul m eigvecs in
  match shape m with
  | [r; c] => Ok (map (fun i => re (get m [i; i])) (seq 0 (Nat.min r c)))
  | _ => Err ValueError
  end.

(** shots.py:139-154 [permutation_matrix]: entries of [(inv(mat) @ eigenvector_matrix).real > 0.5] as 0/1 *)
Definition permutation_matrix (w : world) (mat eigenvector_matrix : arr) : res (list (list R)) :=
  let! m := matmul (inv_mat w mat) eigenvector_matrix in
  match shape m with
  | [r; c] => Ok (map (fun i => map (fun j => if Rgt_dec (re (get m [i; j])) (1 / 2) then 1%R else 0%R) (seq 0 c)) (seq 0 r))
  | _ => Err ValueError
  end.

(** [jnp.dot(v, P)] of a real vector and a real matrix given by its rows, [n] columns *)
Definition rdot (v : list R) (P : list (list R)) (n : nat) : list R :=
  map (fun j => rsum (combine v P) (fun vr => (fst vr * nth j (snd vr) 0)%R)) (seq 0 n).

(** shots.py:121-136 [align_eigenvectors]: the first eigenvector matrix, and for each observable its
    eigenvalues rearranged (the code then transposes).  The result of the [checkify] call is
    discarded by the code, so the check has no effect. *)
Definition align_eigenvectors (w : world) (eigs : list (list R * arr)) : res (arr * list (list R)) :=
  match eigs with
  | [] => Err ValueError
  | (_, eigenvector) :: _ =>
      let! al := mapM (fun e => let! P := permutation_matrix w (snd e) eigenvector in
                                Ok (rdot (fst e) P (List.length (fst e)))) eigs in
      Ok (eigenvector, al)
  end.

(** mean of the values of [vals] at the drawn indices *)
Definition sample_mean (vals : list R) (draws : list nat) : R :=
  (rsum draws (fun i => nth i vals 0%R) / INR (List.length draws))%R.

(** shots.py:68-103 [eigen_sample].  [jax.random.choice(key, a=eigvals, p=probs, shape)] draws rows of the
    transposed eigenvalue array: the same index for every observable. *)
Definition eigen_prepare (w : world) (st : state) (observables : list (list oper)) (vals : values) (n : nat)
  : res (list R * list (list R)) :=
  let qubits := seq 0 n in
  let d := 2 ^ n in
  let! mat_obs := mapM (fun l =>
      let! t := tensor w vals (OObs l) None in
      let! sup := support w (OObs l) in
      let! e := expand_operator t sup qubits in
      reshape e [d; d]) observables in
  let! ea := align_eigenvectors w (map (eigh w) mat_obs) in
  let! probs := match st with
                | SDense a => eigen_probabilities_array a (fst ea)
                | SDM a => eigen_probabilities_dm a (fst ea)
                | SSparse _ => Err NotImplementedError
                end in
  Ok (probs, snd ea).
(** shots.py:68-103 [eigen_sample] *)
Definition eigen_sample (w : world) (st : state) (observables : list (list oper)) (vals : values)
  (n n_shots key : nat) : res (list R) :=
  let! pe := eigen_prepare w st observables vals n in
  let draws := choice w key (fst pe) n_shots in
  Ok (map (fun ev => sample_mean ev draws) (snd pe)).

(** shots.py:179-183 and api.py:55-58: a density matrix is reshaped to a square matrix (in place, see
    Api.v for the aliasing) *)
Definition square_dm (st : state) (n : nat) : res state :=
  match st with
  | SDM a => let! r := reshape a [2 ^ n; 2 ^ n] in Ok (SDM r)
  | _ => Ok st
  end.

(** shots.py:157-184 [finite_shots] *)
Definition finite_shots (w : world) (st : state) (gates : gate_arg) (observables : list (list oper))
  (vals : values) (n_shots key : nat) : res (list R) :=
  let! out := apply_gates w st gates vals UNITARY false true in
  let! n := num_qubits out in
  let! out := square_dm out n in
  eigen_sample w out observables vals n n_shots key.

(** [format(k, "0{n}b")]: binary digits, at least [n] of them, most significant first *)
Fixpoint bin_digits (fuel k : nat) : list nat :=
  match fuel with
  | 0 => []
  | S f => if Nat.eqb k 0 then [] else bin_digits f (k / 2) ++ [k mod 2]
  end.
(** [format(k, "0{n}b")]: operator_utils.py:503 *)
Definition format_bin (n k : nat) : list nat :=
  let d := if Nat.eqb k 0 then [0] else bin_digits k k in repeat 0 (n - List.length d) ++ d.

(** [jnp.bincount(samples)]: number of occurrences of 0 .. max(samples) *)
Definition bincount (samples : list nat) : list nat :=
  map (fun k => count_occ Nat.eq_dec samples k) (seq 0 (S (list_max samples))).

(** operator_utils.py:492-507 [sample_from_probs]; one draw per split key.  [probs] must be a vector with
    [2 ** n_qubits] entries. *)
Definition sample_from_probs (w : world) (probs_shape : list nat) (probs : list R) (n_qubits n_shots : nat)
  : res (list (list nat * nat)) :=
  if list_eqb probs_shape [2 ^ n_qubits] then
    let samples := choice w 0 probs n_shots in
    let counts := bincount samples in
    Ok (map (fun kc => (format_bin n_qubits (fst kc), snd kc))
            (filter (fun kc => Nat.ltb 0 (snd kc)) (combine (seq 0 (List.length counts)) counts)))
  else Err ValueError.
