(** * What [permute_basis] does (C15) *)
From Coq Require Import List Arith Bool Lia Permutation Sorted Reals.
From Verif Require Import Cplx Py PyFacts Ndarray NdFacts NdPerm Spec SpecFacts OperatorUtils Sparse SparseSpec SparseFacts SparseThm2 ApplyOperator ApplyFacts DmFacts ExpandFacts.
Import ListNotations.
Local Open Scope nat_scope.

Lemma restrict_assignment : forall (X : nat -> nat) s t, Permutation s t -> restrict (map X t) (map (fun q => index_of q t) s) = map X s.
Proof.
  intros X s t P. unfold restrict. rewrite map_map. apply map_ext_in. intros q Q. assert (I : In q t) by (apply (Permutation_in q P); exact Q).
  rewrite (nth_indep _ 0 (X 0)) by (rewrite map_length; apply index_of_lt; exact I). rewrite map_nth, nth_index_of by exact I. reflexivity.
Qed.
Lemma assignment_bits : forall (X : nat -> nat) s, (forall q, X q < 2) -> In (map X s) (bitstrings (length s)).
Proof.
  intros X s H. induction s as [|q s IH]; [left; reflexivity|]. cbn [map length]. change (X q :: map X s) with ([X q] ++ map X s). change (S (length s)) with (1 + length s).
  apply bitstrings_app; [|exact IH]. specialize (H q). destruct (X q) as [|[|k]]; [left; reflexivity|right; left; reflexivity|lia].
Qed.
Lemma permute_keeps_density : forall a s inv, is_density (length s) a -> exists r, permute_basis a s inv = Ok r /\ is_density (length s) r.
Proof.
  intros a s inv [Sa Wa]. unfold permute_basis. pose proof (rank_is_perm s) as Hs. set (p := argsort (argsort s)) in *. destruct (list_eqb p (seq 0 (length s))); [exists a; split; [reflexivity|split; assumption]|].
  pose proof (perm_shift2 (length s) p Hs) as Hp. destruct inv.
  - rewrite (argsort_perm (2 * length s)) by exact Hp. destruct (transpose_dense (2 * length s) a _ Sa (is_perm_inv _ _ Hp)) as (r & Er & Sr & Wr & _). exists r. split; [exact Er|split; assumption].
  - destruct (transpose_dense (2 * length s) a _ Sa Hp) as (r & Er & Sr & Wr & _). exists r. split; [exact Er|split; assumption].
Qed.
Lemma c15_meaning : forall a s t, is_density (length s) a -> NoDup s -> Permutation s t -> StronglySorted lt t ->
    exists r r', permute_basis a s false = Ok r /\ permute_basis a s true = Ok r' /\ is_density (length s) r /\ is_density (length s) r' /\
      forall X Y : nat -> nat, (forall q, X q < 2 /\ Y q < 2) ->
        get r (map X s ++ map Y s) = get a (map X t ++ map Y t) /\
        get r' (map X t ++ map Y t) = get a (map X s ++ map Y s).
Proof.
  intros a s t D ND P ST. assert (ES : sorted s = t).
  { symmetry. apply sorted_unique; [|apply sorted_sorted|eapply perm_trans; [apply Permutation_sym; exact P|apply Permutation_sym, sorted_perm]].
    clear - ST. induction ST as [|x l ST IH F]; constructor; [exact IH|]. eapply Forall_impl; [|exact F]. intros y L. lia. }
  destruct (permute_keeps_density a s false D) as (r & E & DR). destruct (permute_basis_inv_gen (length s) a s D eq_refl ND) as (r' & E' & DR' & G').
  exists r, r'. split; [exact E|split; [exact E'|split; [exact DR|split; [exact DR'|]]]].
  destruct (permute_basis_inv_gen (length s) r s DR eq_refl ND) as (a' & EA & _ & GA).
  assert (AA : a' = a).
  { destruct D as [Sa Wa]. destruct (permute_basis_roundtrip a s false Wa) as (r2 & E2 & E3); [unfold ndim; rewrite Sa, repeat_length; reflexivity|]. rewrite E in E2. injection E2 as <-. cbn [negb] in E3. congruence. }
  subst a'. cbn zeta in G', GA. rewrite ES in G', GA. intros X Y B.
  assert (BX : In (map X t) (bitstrings (length s))) by (rewrite (Permutation_length P); apply assignment_bits; intro q; apply B).
  assert (BY : In (map Y t) (bitstrings (length s))) by (rewrite (Permutation_length P); apply assignment_bits; intro q; apply B).
  split; [rewrite (GA _ _ BX BY)|rewrite (G' _ _ BX BY)]; rewrite !restrict_assignment by exact P; reflexivity.
Qed.
Lemma c15_sparse : forall b s inv, Forall (fun e => length (fst e) = length (bshp b)) (bent b) -> is_density (length s) (todense b) ->
    exists r, b_permute_basis b s inv = Ok r /\ permute_basis (todense b) s inv = Ok (todense r).
Proof.
  intros b s inv W D. destruct (permute_keeps_density (todense b) s inv D) as (r & E & _). pose proof (permute_commutes b s inv W) as C. rewrite E in C.
  destruct (b_permute_basis b s inv) as [rb|]; cbn [dlift bind] in C; [|discriminate]. injection C as <-. exists rb. split; [reflexivity|exact E].
Qed.
