(** * C15 (continued): what permute_basis computes.

    Every theorem is followed by an example that meets its hypotheses. *)
From Coq Require Import String List Arith Bool Reals Permutation Sorted.
From Verif Require Import Cplx Py Ndarray OperatorUtils Sparse Spec PermThm Examples.
Import ListNotations.
Local Open Scope nat_scope.

(** [s] is the support, [t] the same qubits in increasing order.  [X] and [Y] give every qubit a row bit and a column bit.  A tensor whose axes belong to the qubits
    in increasing order becomes the tensor whose axes belong to the qubits in the order of the support; the inverse goes back. *)
Theorem C15_permute_basis_reorders_the_qubits : forall a s t, is_density (length s) a -> NoDup s -> Permutation s t -> StronglySorted lt t ->
    exists r r', permute_basis a s false = Ok r /\ permute_basis a s true = Ok r' /\ is_density (length s) r /\ is_density (length s) r' /\
      forall X Y : nat -> nat, (forall q, X q < 2 /\ Y q < 2) ->
        get r (map X s ++ map Y s) = get a (map X t ++ map Y t) /\
        get r' (map X t ++ map Y t) = get a (map X s ++ map Y s).
Proof. exact c15_meaning. Qed.
Print Assumptions C15_permute_basis_reorders_the_qubits.
Example C15_meaning_example : exists r r', permute_basis (mixed 3) [4; 0; 2] false = Ok r /\ permute_basis (mixed 3) [4; 0; 2] true = Ok r' /\
    forall x4 x0 x2 y4 y0 y2, x4 < 2 -> x0 < 2 -> x2 < 2 -> y4 < 2 -> y0 < 2 -> y2 < 2 ->
      get r [x4; x0; x2; y4; y0; y2] = get (mixed 3) [x0; x2; x4; y0; y2; y4] /\ get r' [x0; x2; x4; y0; y2; y4] = get (mixed 3) [x4; x0; x2; y4; y0; y2].
Proof.
  destruct (C15_permute_basis_reorders_the_qubits (mixed 3) [4; 0; 2] [0; 2; 4]) as (r & r' & E & E' & _ & _ & G).
  - apply mixed_density.
  - repeat constructor; simpl; intuition discriminate.
  - apply (Permutation_cons_append [0; 2] 4).
  - repeat constructor.
  - exists r, r'. split; [exact E|split; [exact E'|]]. intros x4 x0 x2 y4 y0 y2 H4 H0 H2 K4 K0 K2.
    apply (G (fun q => match q with 0 => x0 | 2 => x2 | _ => x4 end) (fun q => match q with 0 => y0 | 2 => y2 | _ => y4 end)).
    intro q. destruct q as [|[|[|q]]]; split; assumption.
Qed.
(** sparse tensors are permuted in the same way *)
Theorem C15_sparse_tensors_are_permuted_alike : forall b s inv, Forall (fun e => length (fst e) = length (bshp b)) (bent b) -> is_density (length s) (todense b) ->
    exists r, b_permute_basis b s inv = Ok r /\ permute_basis (todense b) s inv = Ok (todense r).
Proof. exact c15_sparse. Qed.
Print Assumptions C15_sparse_tensors_are_permuted_alike.
Definition perm_sparse : bcoo := mkB [2; 2; 2; 2] [([0; 1; 1; 0], C1); ([1; 1; 0; 1], Ci)].
Example C15_sparse_example : exists r, b_permute_basis perm_sparse [3; 1] false = Ok r /\ permute_basis (todense perm_sparse) [3; 1] false = Ok (todense r).
Proof. apply C15_sparse_tensors_are_permuted_alike; [repeat constructor|split; reflexivity]. Qed.
