(** * Vocabulary for the variational principle and for mixtures of state vectors.  No proofs in this file. *)
From Coq Require Import List Arith Bool Reals.
From Verif Require Import Cplx Py Ndarray OperatorUtils Sparse Noise Gates Apply Spec GateSpec PropSpec SampleSpec ExpectSpec ShotsSpec.
Import ListNotations.
Local Open Scope nat_scope.

(** the energies <f|K|f> / <f|f> are at least, resp. at most, [E] *)
Definition bounded_below (n : nat) (K : op) (E : R) : Prop := forall f, (E * norm2 n f <= re (qform n K f))%R.
Definition bounded_above (n : nat) (K : op) (E : R) : Prop := forall f, (re (qform n K f) <= E * norm2 n f)%R.
(** the state is an eigenstate of [K] with the eigenvalue [E] (a density matrix: a mixture of such states) *)
Definition eigenstate (n : nat) (K : op) (E : R) (s : state) : Prop :=
  match s with
  | SDense a => veq n (apply_kernel n K (amp a)) (fun x => Cmul (RtoC E) (amp a x))
  | SDM a => keq n (kmul n K (rho_entry a)) (kscale (RtoC E) (rho_entry a))
  | SSparse _ => False
  end.
(** the density matrix [r] is the mixture of the normalised state vectors of [ens] with the given probabilities *)
Definition mixture_of (n : nat) (r : op) (ens : list (R * arr)) : Prop :=
  Forall (fun pa => (0 <= fst pa)%R /\ is_state n (snd pa) /\ norm2 n (amp (snd pa)) = 1%R) ens /\ rsum ens fst = 1%R /\
  keq n r (ksum (map (fun pa => kscale (RtoC (fst pa)) (density_of (SDense (snd pa)))) ens)).
