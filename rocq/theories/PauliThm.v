(** * Hamiltonians made of Pauli strings *)
From Coq Require Import String List Arith Bool Reals Lia Lra ZArith Permutation.
From Verif Require Import Cplx Py PyFacts Ndarray NdFacts OperatorUtils Sparse Matrices Noise Gates Apply Composite Conversion Shots Gpsr Api
  Spec SpecFacts Deriv GateSpec PropSpec NoiseSpec SampleSpec ExpectSpec GpsrSpec GateFacts CircuitFacts AlgebraFacts ApplyThm GateThm TensorFacts TensorThm
  KrausThm NoiseThm NoiseThm2 SeqThm SampleThm ShotsSpec ShotsThm ShotsThm2 ExpectThm ExpectThm2 GpsrFacts GpsrThm StructSpec PhysSpec PhysThm PhysThm3 NoiseLawThm PauliSpec.
Import ListNotations.
Local Open Scope nat_scope.

Lemma cprod_ext : forall {A} (l : list A) f g, (forall a, In a l -> f a = g a) -> cprod l f = cprod l g.
Proof. intros A l f g H; induction l as [|a l IH]; [reflexivity|]. cbn [cprod]. rewrite (H a (or_introl eq_refl)), IH; [reflexivity|]. intros; apply H; right; assumption. Qed.
Lemma cprod_split : forall q (f : nat -> C) l, NoDup l -> In q l -> cprod l f = Cmul (f q) (cprod (remove Nat.eq_dec q l) f).
Proof.
  intros q f l N; induction N as [|a l NI N IH]; intros I; [destruct I|]. cbn [cprod remove]. destruct (Nat.eq_dec q a) as [<-|D].
  - rewrite notin_remove by assumption. reflexivity.
  - destruct I as [->|I]; [congruence|]. cbn [cprod]. rewrite IH by assumption. ring.
Qed.
Lemma cprod_conj : forall {A} (l : list A) f, Cconj (cprod l f) = cprod l (fun a => Cconj (f a)).
Proof. intros A l f; induction l as [|a l IH]; cbn [cprod]; [unfold Cconj, C1, RtoC; simpl; f_equal; ring|]. rewrite Cconj_mul, IH; reflexivity. Qed.
Lemma cprod_zero : forall {A} (l : list A) f a, In a l -> f a = C0 -> cprod l f = C0.
Proof. intros A l f a; induction l as [|b l IH]; intros I E; [destruct I|]. cbn [cprod]. destruct I as [->|I]; [rewrite E; ring|]. rewrite IH by assumption; ring. Qed.
Lemma cprod_one : forall {A} (l : list A) f, (forall a, In a l -> f a = C1) -> cprod l f = C1.
Proof. intros A l f H; induction l as [|b l IH]; [reflexivity|]. cbn [cprod]. rewrite (H b (or_introl eq_refl)), IH; [ring|]. intros; apply H; right; assumption. Qed.

Lemma I_bit : forall a b, a < 2 -> b < 2 -> I_matrix [a] [b] = if Nat.eq_dec a b then C1 else C0.
Proof. intros a b Ha Hb. destruct a as [|[|a]], b as [|[|b]]; try lia; reflexivity. Qed.
Lemma string_nil : forall n, keq n (string_matrix n []) kid.
Proof.
  intros n x y Hx Hy. unfold string_matrix. cbn [letter_at letter_matrix].
  pose proof (bitstrings_length n x Hx) as Lx. pose proof (bitstrings_length n y Hy) as Ly.
  unfold kid. destruct (list_eq_dec Nat.eq_dec x y) as [->|N].
  - apply cprod_one; intros q _. rewrite I_bit by (eapply bitstrings_nth_lt; eassumption). destruct (Nat.eq_dec _ _); congruence.
  - assert (D : exists q, q < n /\ nth q x 0 <> nth q y 0).
    { destruct (Forall_Exists_dec (fun q => nth q x 0 = nth q y 0) (fun q => Nat.eq_dec _ _) (seq 0 n)) as [F|E].
      - elim N. apply (nth_ext x y 0 0); [congruence|]. intros q Hq. rewrite Forall_forall in F. apply F, in_seq. lia.
      - apply Exists_exists in E as (q & I & Q). apply in_seq in I. exists q; split; [lia|exact Q]. }
    destruct D as (q & Hq & D). apply (cprod_zero _ _ q); [apply in_seq; lia|]. rewrite I_bit by (eapply bitstrings_nth_lt; eassumption).
    destruct (Nat.eq_dec _ _); congruence.
Qed.
Lemma letter_off : forall s q, ~ In q (map snd s) -> letter_at s q = LI.
Proof.
  intros s q; induction s as [|[P q'] s IH]; intro N; [reflexivity|]. cbn [letter_at map snd] in *. destruct (Nat.eqb_spec q q') as [->|D]; [elim N; left; reflexivity|].
  apply IH. intro I; apply N; right; exact I.
Qed.
Definition lop (Pq : letter * nat) : op := gate_op (letter_matrix (fst Pq)) [] [snd Pq].
Lemma string_cons : forall n P q s, q < n -> ~ In q (map snd s) -> keq n (kmul n (lop (P, q)) (string_matrix n s)) (string_matrix n ((P, q) :: s)).
Proof.
  intros n P q s Hq NI x y Hx Hy. change (apply_kernel n (ctrl_kernel (letter_matrix P) [] [q]) (fun z => string_matrix n s z y) x = string_matrix n ((P, q) :: s) x y).
  rewrite ctrl_kernel_action by exact Hx. unfold ctrl_action, gate_action. cbn [bits_at map all_ones forallb length].
  change (csum (bitstrings 1) (fun z => Cmul (letter_matrix P [nth q x 0] z) (string_matrix n s (overwrite x [q] z) y)) = string_matrix n ((P, q) :: s) x y).
  pose proof (bitstrings_length n x Hx) as Lx. pose proof (bitstrings_nth_lt n y q Hy) as By.
  assert (IQ : In q (seq 0 n)) by (apply in_seq; lia).
  set (rest := cprod (remove Nat.eq_dec q (seq 0 n)) (fun q' => letter_matrix (letter_at s q') [nth q' x 0] [nth q' y 0])).
  assert (R1 : string_matrix n ((P, q) :: s) x y = Cmul (letter_matrix P [nth q x 0] [nth q y 0]) rest).
  { unfold string_matrix. rewrite (cprod_split q) by (try apply seq_NoDup; exact IQ). cbn [letter_at]. rewrite Nat.eqb_refl. f_equal. apply cprod_ext. intros q' I.
    apply in_remove in I as [_ D]. destruct (Nat.eqb_spec q' q); [congruence|reflexivity]. }
  assert (R2 : forall b, b < 2 -> string_matrix n s (overwrite x [q] [b]) y = Cmul (I_matrix [b] [nth q y 0]) rest).
  { intros b Hb. unfold string_matrix. rewrite (cprod_split q) by (try apply seq_NoDup; exact IQ). rewrite (letter_off s q NI). f_equal.
    - cbn [letter_matrix]. do 2 f_equal. cbn [overwrite]. rewrite nth_set_bit_eq by lia. reflexivity.
    - apply cprod_ext. intros q' I. apply in_remove in I as [_ D]. rewrite nth_overwrite_notin by (intros [E|[]]; congruence). reflexivity. }
  rewrite R1. change (bitstrings 1) with [[0]; [1]]. cbn [csum]. rewrite !R2 by lia.
  destruct (nth q y 0) as [|[|b]]; [| |lia]; cbn [I_matrix mat2]; ring.
Qed.
Lemma string_commuting : forall n s, NoDup (map snd s) -> Forall (fun q => q < n) (map snd s) -> commuting n (map lop s).
Proof.
  intros n s; induction s as [|[P q] s IH]; intros N F; cbn [map snd] in *; [constructor|]. inversion N as [|? ? NI N']; inversion F as [|? ? Hq F']; subst. constructor; [|auto].
  apply Forall_map, Forall_forall. intros [P' q'] I. apply ctrl_kernel_comm. cbn [app]. apply in_map with (f := snd) in I. cbn [snd] in I.
  split; [repeat constructor; simpl; [intros [E|[]]; subst; contradiction|tauto]|]. rewrite Forall_forall in F'. repeat apply Forall_cons; [exact Hq|apply F'; exact I|apply Forall_nil].
Qed.
Lemma string_prod : forall n s, NoDup (map snd s) -> Forall (fun q => q < n) (map snd s) -> keq n (kprod n (map lop s)) (string_matrix n s).
Proof.
  intros n s; induction s as [|[P q] s IH]; intros N F; cbn [map snd] in *; [symmetry; apply string_nil|]. pose proof (string_commuting n ((P, q) :: s) N F) as CM.
  inversion N as [|? ? NI N']; inversion F as [|? ? Hq F']; subst. cbn [kprod]. inversion CM as [|? ? C1' _]; subst.
  eapply keq_trans; [apply keq_sym, kprod_comm1; exact C1'|]. eapply keq_trans; [apply kmul_ext; [apply keq_refl|apply IH; assumption]|]. apply string_cons; assumption.
Qed.

(** ** the operations *)
Lemma term_is : forall t, string_term t = OScale (map (fun Pq => letter_gate (fst Pq) (snd Pq)) (snd t)) (PNum (fst t)).
Proof.
  intros [c s]. unfold string_term. cbn [fst snd]. assert (E : forall s : pauli_string, list_of (AOp (OpSequence (map (fun Pq => letter_gate (fst Pq) (snd Pq)) s))) = map (fun Pq => letter_gate (fst Pq) (snd Pq)) s).
  { clear. intro s. unfold list_of, OpSequence. cbn [iter]. induction s as [|[P q] s IH]; [reflexivity|]. cbn [map flat_map]. rewrite IH. reflexivity. }
  destruct s as [|[P q] [|Pq s]]; try reflexivity. unfold Scale. rewrite E. reflexivity.
Qed.
Lemma letter_denotes : forall w n vals sq P q, q < n -> denotes w n vals sq (letter_gate P q) (lop (P, q)).
Proof.
  intros w n vals sq P q Hq. destruct P; (apply den_gate; [|reflexivity|reflexivity]); (split; [eapply gm_fixed; simpl; eauto 10|apply cq_default|reflexivity|apply valid_one; exact Hq]).
Qed.
Lemma term_denotes : forall w n vals t, string_ok n (snd t) -> denotes w n vals false (string_term t) (kscale (RtoC (fst t)) (kprod n (map lop (snd t)))).
Proof.
  intros w n vals [c s] (NE & N & F). cbn [fst snd] in *. rewrite term_is. apply den_multiple; [right; split; [destruct s; [contradiction|discriminate]|apply string_commuting; assumption]| |reflexivity].
  clear NE N. cbn [snd]. induction s as [|[P q] s IH]; cbn [map]; [constructor|]. inversion F; subst. constructor; [apply letter_denotes; assumption|auto].
Qed.
Definition hop (n : nat) (H : hamiltonian) : op := ksum (map (fun t => kscale (RtoC (fst t)) (kprod n (map lop (snd t)))) H).
Lemma hop_matrix : forall n H, hamiltonian_ok n H -> keq n (hop n H) (hamiltonian_matrix n H).
Proof.
  intros n H [_ F]. unfold hop, hamiltonian_matrix. induction F as [|[c s] H (NE & N & B) F IH]; intros x y Hx Hy; [reflexivity|]. cbn [map ksum csum fst snd] in *.
  rewrite (IH x y Hx Hy). f_equal. unfold kscale. f_equal. apply string_prod; assumption.
Qed.
Lemma hamiltonian_on : forall w n vals H, hamiltonian_ok n H -> observable_on w n vals false (hamiltonian_operations H) (hop n H).
Proof.
  intros w n vals H [NE F]. exists (map (fun t => kscale (RtoC (fst t)) (kprod n (map lop (snd t)))) H). split; [destruct H; [contradiction|discriminate]|split; [|reflexivity]].
  clear NE. unfold hamiltonian_operations. induction F as [|t H O F IH]; cbn [map]; constructor; [apply term_denotes; exact O|exact IH].
Qed.
Lemma c111_readable : forall w n vals st gs H, hamiltonian_ok n H -> (mixes st gs -> increasing_support w (hamiltonian_operations H)) ->
    exists K, readable w n vals st gs (hamiltonian_operations H) K /\ keq n K (hamiltonian_matrix n H).
Proof.
  intros w n vals st gs H HO IS. exists (hop n H). split; [|apply hop_matrix; exact HO]. split; [exists false; apply hamiltonian_on; exact HO|].
  intro M. split; [apply hamiltonian_on; exact HO|auto].
Qed.
Lemma energy_mean : forall n H s, hamiltonian_ok n H -> state_of n s -> mean n (hamiltonian_matrix n H) s = energy n H s.
Proof.
  intros n H s HO HS. assert (MD : forall K, mean n K s = mean_density n K (density_of s)).
  { intro K. destruct s as [a|b|a]; [|destruct HS|reflexivity]. cbn [mean density_of]. symmetry. apply mean_pure_density. }
  unfold energy. rewrite MD, (mean_density_ext n _ (hop n H) _ _ (keq_sym _ _ _ (hop_matrix n H HO)) (keq_refl n _)). unfold hop. rewrite mean_ksum. unfold total. destruct HO as [_ F].
  induction F as [|[c st] H (NE & N & B) F IH]; cbn [map rsum fst snd] in *; [reflexivity|]. rewrite IH, mean_kscale, MD. do 2 f_equal.
  apply mean_density_ext; [apply string_prod; assumption|apply keq_refl].
Qed.
Lemma c111_value : forall w n vals c gs st H mode key, set_order (set_iter w) -> flat_values vals -> runnable n vals c gs -> state_of n st ->
    hamiltonian_ok n H -> (mixes st gs -> increasing_support w (hamiltonian_operations H)) -> exact_mode mode ->
    exists out, run w c st vals = Ok (Some out) /\ expectation w st c [hamiltonian_operations H] vals mode 0 key = Ok [energy n H out].
Proof.
  intros w n vals c gs st H mode key SO FV RN HT HO IS EM. destruct (output_spec w n vals c gs st SO RN HT) as (out & E1 & _ & E2 & So & KO & _).
  exists out. split; [exact E1|]. destruct (c111_readable w n vals st gs H HO IS) as (K & HR & EK).
  assert (F : Forall2 (readable w n vals st gs) [hamiltonian_operations H] [K]) by (constructor; [exact HR|constructor]).
  assert (NE : [hamiltonian_operations H] <> []) by discriminate.
  rewrite (exact_spec w n vals c gs st [hamiltonian_operations H] [K] mode key SO FV RN HT NE F EM). cbn [map]. do 2 f_equal.
  rewrite <- (energy_mean n H out HO So). rewrite (mean_density_ext n K _ _ _ EK (keq_sym _ _ _ KO)).
  destruct out as [a|b|a]; [|destruct So|reflexivity]. cbn [mean density_of]. apply mean_pure_density.
Qed.

(** ** Hermitian, and between plus and minus the sum of the absolute values of the coefficients *)
Lemma letter_conj : forall P a b, a < 2 -> b < 2 -> Cconj (letter_matrix P [b] [a]) = letter_matrix P [a] [b].
Proof.
  intros P a b Ha Hb. destruct a as [|[|a]], b as [|[|b]]; try lia; destruct P; lazy -[Rplus Rmult Ropp Rminus IZR]; f_equal; ring.
Qed.
Lemma c111_hermitian : forall n H, keq n (kadj (hamiltonian_matrix n H)) (hamiltonian_matrix n H).
Proof.
  intros n H x y Hx Hy. unfold kadj, hamiltonian_matrix. rewrite csum_conj. apply csum_ext. intros [c s] _. cbn [fst snd]. rewrite Cconj_mul. f_equal.
  - unfold Cconj, RtoC; simpl; f_equal; ring.
  - unfold string_matrix. rewrite cprod_conj. apply cprod_ext. intros q _. apply letter_conj; eapply bitstrings_nth_lt; eassumption.
Qed.
Lemma letter_usable : forall n vals P q, q < n -> usable n vals (match P with LI => gI | LX => gX | LY => gY | LZ => gZ end (TInt q) no_control None false).
Proof.
  intros n vals P q Hq. exists (letter_matrix P), [], [q]. destruct P; (split; [eapply gm_fixed; simpl; eauto 10|apply cq_default|reflexivity|apply valid_one; exact Hq]).
Qed.
Lemma term_magnitude : forall n vals t, string_ok n (snd t) -> magnitude n vals (string_term t) (Rabs (fst t)).
Proof.
  intros n vals [c s] (NE & N & F). rewrite term_is. cbn [fst snd] in *.
  apply (mag_multiple n vals _ (List.concat (map (fun Pq : letter * nat => [match fst Pq with LI => gI | LX => gX | LY => gY | LZ => gZ end (TInt (snd Pq)) no_control None false]) s))); [reflexivity| | |].
  - constructor. clear. induction s as [|[P q] s IH]; cbn [map]; constructor; [constructor|exact IH].
  - clear NE N. induction s as [|[P q] s IH]; cbn [map List.concat app fst snd] in *; constructor; inversion F; subst; [apply letter_usable; assumption|auto].
  - clear. induction s as [|[P q] s IH]; cbn [map List.concat app fst snd]; constructor; [destruct P; reflexivity|exact IH].
Qed.
Lemma c111_bound : forall w n vals c gs st H mode key, set_order (set_iter w) -> flat_values vals -> runnable n vals c gs -> state_of n st -> physical n st ->
    hamiltonian_ok n H -> (mixes st gs -> increasing_support w (hamiltonian_operations H)) -> exact_mode mode ->
    exists e, expectation w st c [hamiltonian_operations H] vals mode 0 key = Ok [e] /\ (- one_norm H <= e <= one_norm H)%R.
Proof.
  intros w n vals c gs st H mode key SO FV RN HT PH HO IS EM. destruct (c111_readable w n vals st gs H HO IS) as (K & HR & EK).
  assert (E : one_norm H = total (map (fun t => Rabs (fst t)) H)).
  { unfold one_norm, total. clear. induction H as [|t H IH]; [reflexivity|]. cbn [map rsum]. rewrite IH; reflexivity. }
  rewrite E. apply (c85_bound w n vals c gs st (hamiltonian_operations H) K); try assumption. destruct HO as [_ F]. unfold hamiltonian_operations. clear - F.
  induction F as [|t H O F IH]; cbn [map]; constructor; [apply term_magnitude; exact O|exact IH].
Qed.

(** ** finite shots *)
Lemma diagonalised_ext : forall w n K K' ev V, keq n K K' -> diagonalised w n K ev V -> diagonalised w n K' ev V.
Proof.
  intros w n K K' ev V E (D1 & D2 & (L & U & D3) & D4 & D5). split; [|split; [exact D2|split; [split; [exact L|split; [exact U|]]|split; [exact D4|exact D5]]]].
  - intros m Mm Em. apply D1; [exact Mm|]. eapply keq_trans; [exact Em|apply keq_sym; exact E].
  - eapply keq_trans; [|exact D3]. apply kmul_ext; [apply keq_sym; exact E|apply keq_refl].
Qed.
Lemma c111_shots : forall w n vals c gs st H ev V mode k key, set_order (set_iter w) -> runnable n vals c gs -> state_of n st ->
    hamiltonian_ok n H -> diagonalised w n (hamiltonian_matrix n H) ev V -> mode = AD \/ mode = GPSR -> (0 < k)%Z ->
    exists out estimate, run w c st vals = Ok (Some out) /\
      (forall ch, expectation (with_choice w ch) st c [hamiltonian_operations H] vals mode k key = Ok [estimate ch]) /\
      forall Om, fair_sampling Om key (outcome_distribution n (entry V) out) (Z.to_nat k) -> expected Om estimate = energy n H out.
Proof.
  intros w n vals c gs st H ev V mode k key SO RN HT HO HD HM Hk. pose proof RN as (HS & NE & FU & FD & FN).
  assert (HD' : diagonalised w n (hop n H) ev V) by (eapply diagonalised_ext; [apply keq_sym, hop_matrix; exact HO|exact HD]).
  assert (HJ : jointly_measured w n vals V [hamiltonian_operations H] [hop n H] [ev]).
  { econstructor; [apply hamiltonian_on; exact HO|exact HD'|apply same_columns_refl|constructor]. }
  destruct (any_choice w n vals c gs st _ _ ev V [] [] [] mode k key SO HS NE FU FD FN HT HD' HJ HM Hk) as (out & Er & So & _ & _ & E & M).
  exists out. eexists. split; [exact Er|split; [intro ch; rewrite E; reflexivity|]]. intros Om HF. cbv beta.
  rewrite estimate_mean; [|exact HF|apply eigenvalues_length|lia]. inversion M as [|? ? M1 _]; subst. rewrite M1, <- (energy_mean n H out HO So).
  apply mean_ext, hop_matrix; exact HO.
Qed.
