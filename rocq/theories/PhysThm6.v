(** * Renaming qubits *)
From Coq Require Import String List Arith Bool Reals Lia Lra ZArith Permutation.
From Verif Require Import Cplx Py PyFacts Ndarray OperatorUtils Sparse Matrices Noise Gates Apply Composite Conversion Shots Gpsr Api
  Spec SpecFacts Deriv GateSpec PropSpec NoiseSpec SampleSpec ExpectSpec GpsrSpec GateFacts CircuitFacts AlgebraFacts ApplyThm GateThm TensorFacts TensorThm
  KrausThm NoiseThm NoiseThm2 SeqThm SampleThm ShotsSpec ShotsThm ExpectThm ExpectThm2 GpsrFacts GpsrThm StructSpec PhysSpec PhysThm PhysThm2.
Import ListNotations.
Local Open Scope nat_scope.

Lemma NoDup_map_inj : forall {A B} (h : A -> B) l, (forall x y, In x l -> In y l -> h x = h y -> x = y) -> NoDup l -> NoDup (map h l).
Proof.
  intros A B h l H ND. induction ND as [|a l N ND IH]; [constructor|]. cbn [map]. apply NoDup_cons.
  - intro I. apply in_map_iff in I as (b & E & Hb). apply N. rewrite (H a b); [exact Hb|left; reflexivity|right; exact Hb|symmetry; exact E].
  - apply IH. intros x y Hx Hy. apply H; right; assumption.
Qed.

Section Renaming.
  Variables (n : nat) (f : nat -> nat).
  Hypothesis P : permutes n f.
  Let pull := read_through n f.

  Lemma f_lt : forall q, q < n -> f q < n.
  Proof. intros q Hq. destruct P as [_ F]. rewrite Forall_forall in F. apply F, in_map, in_seq. lia. Qed.
  Lemma f_inj : forall p q, p < n -> q < n -> f p = f q -> p = q.
  Proof.
    intros p q Hp Hq E. destruct P as [ND _]. rewrite (NoDup_nth _ 0) in ND. rewrite map_length, seq_length in ND.
    apply (ND p q Hp Hq). rewrite !(nth_indep (map f (seq 0 n)) 0 (f 0)) by (rewrite map_length, seq_length; assumption). rewrite !map_nth, !seq_nth by assumption. exact E.
  Qed.
  Lemma f_surj : forall p, p < n -> exists q, q < n /\ f q = p.
  Proof.
    intros p Hp. destruct P as [ND F]. assert (I : incl (seq 0 n) (map f (seq 0 n))).
    { apply NoDup_length_incl; [exact ND|rewrite map_length; lia|]. intros x Hx. rewrite Forall_forall in F. apply in_seq. specialize (F x Hx). lia. }
    specialize (I p). rewrite in_seq in I. specialize (I ltac:(lia)). apply in_map_iff in I as (q & E & Hq). apply in_seq in Hq. exists q. split; [lia|exact E].
  Qed.
  Lemma nth_pull : forall x q, q < n -> nth q (pull x) 0 = nth (f q) x 0.
  Proof.
    intros x q Hq. unfold pull, read_through. rewrite nth_bits_at by (rewrite map_length, seq_length; exact Hq).
    rewrite (nth_indep (map f (seq 0 n)) 0 (f 0)) by (rewrite map_length, seq_length; exact Hq). rewrite map_nth, seq_nth by exact Hq. reflexivity.
  Qed.
  Lemma pull_length : forall x, length (pull x) = n.
  Proof. intro x. unfold pull, read_through. rewrite bits_at_length, map_length, seq_length. reflexivity. Qed.
  Lemma pull_bits : forall x, In x (bitstrings n) -> In (pull x) (bitstrings n).
  Proof. intros x Hx. pose proof (bits_at_bits n x (map f (seq 0 n)) Hx) as H. rewrite map_length, seq_length in H. exact H. Qed.
  Lemma pull_inj : forall x y, In x (bitstrings n) -> In y (bitstrings n) -> pull x = pull y -> x = y.
  Proof.
    intros x y Hx Hy E. pose proof (bitstrings_length n x Hx) as Lx. pose proof (bitstrings_length n y Hy) as Ly. apply list_ext; [lia|]. intros p Hp.
    destruct (f_surj p ltac:(lia)) as (q & Hq & <-). rewrite <- !nth_pull by exact Hq. rewrite E. reflexivity.
  Qed.
  Lemma pull_kid : forall x y, In x (bitstrings n) -> In y (bitstrings n) -> kid (pull x) (pull y) = kid x y.
  Proof.
    intros x y Hx Hy. unfold kid. destruct (list_eq_dec Nat.eq_dec x y) as [->|N]; [destruct (list_eq_dec Nat.eq_dec (pull y) (pull y)); [reflexivity|contradiction]|].
    destruct (list_eq_dec Nat.eq_dec (pull x) (pull y)) as [E|]; [|reflexivity]. elim N. apply pull_inj; assumption.
  Qed.
  Lemma pull_sum : forall h, csum (bitstrings n) (fun x => h (pull x)) = csum (bitstrings n) h.
  Proof.
    intro h. rewrite <- (csum_map pull). apply csum_perm. apply NoDup_Permutation_bis.
    - apply NoDup_map_inj; [|apply bitstrings_NoDup]. intros x y Hx Hy E. apply pull_inj; assumption.
    - rewrite map_length. lia.
    - intros x Hx. apply in_map_iff in Hx as (y & <- & Hy). apply pull_bits, Hy.
  Qed.
  Lemma pull_bits_at : forall x qs, (forall q, In q qs -> q < n) -> bits_at (pull x) qs = bits_at x (map f qs).
  Proof. intros x qs H. unfold bits_at. rewrite map_map. apply map_ext_in; intros q Hq. apply nth_pull, H, Hq. Qed.
  Lemma pull_set : forall x q b, length x = n -> q < n -> pull (set_bit x (f q) b) = set_bit (pull x) q b.
  Proof.
    intros x q b L Hq. apply list_ext; [rewrite set_bit_length, !pull_length; reflexivity|]. rewrite pull_length. intros p Hp. rewrite nth_pull by exact Hp.
    destruct (Nat.eq_dec p q) as [->|N].
    - rewrite nth_set_bit_eq by (rewrite L; apply f_lt, Hq). rewrite nth_set_bit_eq by (rewrite pull_length; exact Hq). reflexivity.
    - rewrite nth_set_bit_ne by (intro E; apply N, f_inj; assumption). rewrite nth_set_bit_ne by exact N. symmetry; apply nth_pull, Hp.
  Qed.
  Lemma pull_overwrite : forall qs x z, length x = n -> (forall q, In q qs -> q < n) -> pull (overwrite x (map f qs) z) = overwrite (pull x) qs z.
  Proof.
    induction qs as [|q qs IH]; intros x [|b z] L H; try reflexivity. cbn [map overwrite].
    rewrite pull_set by (first [rewrite overwrite_length; exact L|apply H; left; reflexivity]). rewrite IH; [reflexivity|exact L|]. intros p Hp; apply H; right; exact Hp.
  Qed.

  (** [K'] is [K] on the renamed qubits *)
  Definition pulled (K' K : op) : Prop := forall x y, In x (bitstrings n) -> In y (bitstrings n) -> K' x y = K (pull x) (pull y).
  Lemma pulled_id : pulled kid kid.
  Proof. intros x y Hx Hy. symmetry; apply pull_kid; assumption. Qed.
  Lemma pulled_kernel : forall M cs ts, valid_qubits n (cs ++ ts) -> pulled (ctrl_kernel M (map f cs) (map f ts)) (ctrl_kernel M cs ts).
  Proof.
    intros M cs ts [_ V] x y Hx Hy. rewrite Forall_forall in V. unfold ctrl_kernel. rewrite map_length.
    rewrite (pull_bits_at x cs) by (intros q Q; apply V, in_or_app; auto). rewrite (pull_bits_at x ts) by (intros q Q; apply V, in_or_app; auto).
    destruct (all_ones (bits_at x (map f cs))); [|symmetry; apply pull_kid; assumption]. apply csum_ext; intros z Hz. f_equal.
    rewrite <- pull_overwrite; [|apply (bitstrings_length n x Hx)|intros q Q; apply V, in_or_app; auto]. symmetry. apply pull_kid; [|exact Hy].
    apply overwrite_bits; [exact Hx|]. rewrite map_length. exact Hz.
  Qed.
  Lemma pulled_add : forall A' A B' B, pulled A' A -> pulled B' B -> pulled (kadd A' B') (kadd A B).
  Proof. intros A' A B' B H1 H2 x y Hx Hy. unfold kadd. rewrite H1, H2 by assumption. reflexivity. Qed.
  Lemma pulled_scale : forall c A' A, pulled A' A -> pulled (kscale c A') (kscale c A).
  Proof. intros c A' A H x y Hx Hy. unfold kscale. rewrite H by assumption. reflexivity. Qed.
  Lemma pulled_sum : forall Ks' Ks, Forall2 pulled Ks' Ks -> pulled (ksum Ks') (ksum Ks).
  Proof. intros Ks' Ks F; induction F as [|A B Ks' Ks H F IH]; [intros x y _ _; reflexivity|]. apply (pulled_add A B (ksum Ks') (ksum Ks) H IH). Qed.
  Lemma pulled_mul : forall A' A B' B, pulled A' A -> pulled B' B -> pulled (kmul n A' B') (kmul n A B).
  Proof.
    intros A' A B' B H1 H2 x y Hx Hy. unfold kmul. rewrite <- (pull_sum (fun z => Cmul (A (pull x) z) (B z (pull y)))). apply csum_ext; intros z Hz. rewrite H1, H2 by assumption. reflexivity.
  Qed.
  Lemma pulled_adj : forall A' A, pulled A' A -> pulled (kadj A') (kadj A).
  Proof. intros A' A H x y Hx Hy. unfold kadj. rewrite H by assumption. reflexivity. Qed.
  Lemma pulled_prod : forall Ks' Ks, Forall2 pulled Ks' Ks -> pulled (kprod n Ks') (kprod n Ks).
  Proof. intros Ks' Ks F; induction F as [|A B Ks' Ks H F IH]; [apply pulled_id|]. cbn [kprod]. apply pulled_mul; assumption. Qed.
  Lemma pulled_ext_r : forall A' A B, pulled A' A -> keq n A B -> pulled A' B.
  Proof. intros A' A B H E x y Hx Hy. rewrite (H x y Hx Hy). apply E; apply pull_bits; assumption. Qed.
  Lemma pulled_ext_l : forall A' B' A, pulled A' A -> keq n A' B' -> pulled B' A.
  Proof. intros A' B' A H E x y Hx Hy. rewrite <- (E x y Hx Hy). apply H; assumption. Qed.
  Lemma pulled_sandwich : forall A' A r' r, pulled A' A -> pulled r' r -> pulled (sandwiched n A' r') (sandwiched n A r).
  Proof. intros A' A r' r H1 H2. unfold sandwiched. apply pulled_mul; [apply pulled_mul; assumption|apply pulled_adj; assumption]. Qed.
  Lemma pulled_kraus : forall q ks r' r, q < n -> pulled r' r -> pulled (kraus_sum n (f q) ks r') (kraus_sum n q ks r).
  Proof.
    intros q ks r' r Hq H. unfold kraus_sum. apply pulled_sum. induction ks as [|k ks IH]; constructor; [|exact IH]. apply pulled_sandwich; [|exact H].
    apply (pulled_kernel (entry k) [] [q]). split; [repeat constructor; simpl; tauto|repeat constructor; exact Hq].
  Qed.
  Lemma pulled_trace : forall A' A, pulled A' A -> ktrace n A' = ktrace n A.
  Proof. intros A' A H. unfold ktrace. rewrite <- (pull_sum (fun x => A x x)). apply csum_ext; intros x Hx. apply H; assumption. Qed.

  (** gates *)
  Lemma rename_controls : forall c cs, control_qubits c cs -> control_qubits (rename_control f c) (map f cs).
  Proof.
    intros c cs H. destruct H as [| |cs]; [apply cq_none|apply cq_default|]. cbn [rename_control]. rewrite map_map.
    replace (map (fun x => QInt (f x)) cs) with (map QInt (map f cs)) by (rewrite map_map; reflexivity). apply cq_ints.
  Qed.
  Lemma rename_valid : forall qs, valid_qubits n qs -> valid_qubits n (map f qs).
  Proof.
    intros qs [ND F]. rewrite Forall_forall in F. split.
    - apply NoDup_map_inj; [|exact ND]. intros p q Hp Hq E. apply f_inj; auto.
    - apply Forall_forall. intros x Hx. apply in_map_iff in Hx as (q & <- & Hq). apply f_lt, F, Hq.
  Qed.
  Lemma rename_gate_on : forall vals g M cs ts, gate_on n vals g M cs ts -> gate_on n vals (rename_gate f g) M (map f cs) (map f ts).
  Proof.
    intros vals g M cs ts [HM HC HT HV]. split.
    - destruct HM as [nm M C N L I|C N L|nm R_ t C N L A I|t C L A]; [eapply gm_fixed|apply gm_SWAP|eapply gm_rotation|apply gm_PHASE]; cbn [rename_gate gclass generator_name target]; rewrite ?map_length; eauto.
    - apply rename_controls, HC.
    - cbn [rename_gate target]. rewrite HT; reflexivity.
    - rewrite <- map_app. apply rename_valid, HV.
  Qed.
  Lemma rename_usable : forall vals g, usable n vals g -> usable n vals (rename_gate f g).
  Proof. intros vals g (M & cs & ts & HG). exists M, (map f cs), (map f ts). apply rename_gate_on, HG. Qed.
  Lemma rename_noise_ok : forall g, noise_ok g -> noise_ok (rename_gate f g).
  Proof. intros g H. unfold noise_ok in *. cbn [rename_gate noise target]. rewrite map_length. exact H. Qed.
  Lemma rename_sequence : forall c gs, sequence_of c gs -> sequence_of (rename f c) (map (rename_gate f) gs).
  Proof.
    assert (LIST : forall l gss, Forall2 (fun c gs => sequence_of (rename f c) (map (rename_gate f) gs)) l gss ->
      Forall2 sequence_of (map (rename f) l) (map (map (rename_gate f)) gss)).
    { intros l gss F. induction F; constructor; assumption. }
    apply sequence_induction.
    - intro g. constructor.
    - intros l gss F. cbn [rename]. rewrite concat_map. constructor. apply LIST, F.
    - intros m l fp gss F. cbn [rename]. rewrite concat_map. constructor. apply LIST, F.
  Qed.
  Lemma rename_runnable : forall vals c gs, runnable n vals c gs -> runnable n vals (rename f c) (map (rename_gate f) gs).
  Proof.
    intros vals c gs (A & B & D & E & F). split; [apply rename_sequence, A|]. split; [destruct gs; [contradiction|discriminate]|].
    split; [|split]; apply Forall_map.
    - eapply Forall_impl; [|exact D]. intro g. apply rename_usable.
    - eapply Forall_impl; [|exact E]. intros g H. exact H.
    - eapply Forall_impl; [|exact F]. intro g. apply rename_noise_ok.
  Qed.
  Lemma pulled_channels : forall q l r' r, q < n -> pulled r' r -> pulled (channels n [f q] (Some l) r') (channels n [q] (Some l) r).
  Proof. intros q l r' r Hq. cbn [channels hd]. revert r' r. induction l as [|i l IH]; intros r' r H; [exact H|]. cbn [fold_left]. apply IH, pulled_kraus; assumption. Qed.
  Lemma pulled_step : forall vals g r' r, usable n vals g -> noise_ok g -> pulled r' r -> pulled (step n vals (rename_gate f g) r') (step n vals g r).
  Proof.
    intros vals g r' r HU HN H. destruct (step_form n vals g HU HN) as (M & cs & ts & HG & _ & HF). pose proof (rename_gate_on vals g M cs ts HG) as HG'.
    assert (S : pulled (sandwiched n (gate_op M (map f cs) (map f ts)) r') (sandwiched n (gate_op M cs ts) r)).
    { apply pulled_sandwich; [|exact H]. apply pulled_kernel, (go_qubits _ _ _ _ _ _ HG). }
    unfold step at 1. rewrite (mat_of_spec _ _ _ (go_matrix _ _ _ _ _ _ HG')), (ctrl_of_spec _ _ (go_control _ _ _ _ _ _ HG')), (go_target _ _ _ _ _ _ HG'). cbn [rename_gate noise].
    destruct HF as [(N & E)|(q & l & N & ET & Hq & F & E)]; rewrite E, N.
    - exact S.
    - rewrite ET in S |- *. apply pulled_channels; assumption.
  Qed.
  Lemma pulled_evolve : forall vals gs r' r, Forall (usable n vals) gs -> Forall noise_ok gs -> pulled r' r -> pulled (evolve n vals (map (rename_gate f) gs) r') (evolve n vals gs r).
  Proof.
    intros vals gs r' r FU. revert r' r. induction FU as [|g gs U FU IH]; intros r' r FN H; [exact H|]. inversion FN as [|? ? N1 N2]; subst. cbn [map evolve].
    apply IH; [exact N2|]. apply pulled_step; assumption.
  Qed.
  Lemma pulled_circuit : forall vals gs U, circuit_on n vals gs U -> exists U', circuit_on n vals (map (rename_gate f) gs) U' /\ pulled U' U.
  Proof.
    intros vals gs U H. induction H as [|g gs M cs ts U HG HC (U' & C' & E)]; [exists kid; split; [constructor|apply pulled_id]|].
    exists (kmul n U' (gate_op M (map f cs) (map f ts))). split; [econstructor; [apply rename_gate_on, HG|exact C']|].
    apply pulled_mul; [exact E|]. apply pulled_kernel, (go_qubits _ _ _ _ _ _ HG).
  Qed.
  (** observables *)
  Lemma pulled_commuting : forall Ks' Ks, Forall2 pulled Ks' Ks -> commuting n Ks -> commuting n Ks'.
  Proof.
    intros Ks' Ks F. induction F as [|A' A Ks' Ks H F IH]; intro CM; inversion CM as [|? ? C1' C2']; subst; constructor; [|auto].
    clear IH CM C2'. induction F as [|B' B Ks' Ks HB F IH]; [constructor|]. inversion C1'; subst. constructor; [|auto].
    intros x y Hx Hy. rewrite (pulled_mul A' A B' B H HB x y Hx Hy), (pulled_mul B' B A' A HB H x y Hx Hy). auto using pull_bits.
  Qed.
  Lemma pulled_sequences : forall sq Ks' Ks, Forall2 pulled Ks' Ks -> sequences n sq Ks -> sequences n sq Ks'.
  Proof.
    intros sq Ks' Ks F [E|[NE CM]]; [left; exact E|right]. split; [|eapply pulled_commuting; eassumption]. intros ->. inversion F; subst. contradiction.
  Qed.
  Lemma rename_denotes : forall w vals sq o K, denotes w n vals sq o K -> (forall g, In g (all_gates o) -> usable n vals g /\ dense_gate g) ->
      exists K', denotes w n vals sq (rename f o) K' /\ pulled K' K.
  Proof.
    intros w vals sq.
    assert (LIST : forall l Ks, Forall2 (fun o K => (forall g, In g (all_gates o) -> usable n vals g /\ dense_gate g) -> exists K', denotes w n vals sq (rename f o) K' /\ pulled K' K) l Ks ->
      (forall g, In g (flat_map all_gates l) -> usable n vals g /\ dense_gate g) ->
      exists Ks', Forall2 (denotes w n vals sq) (map (rename f) l) Ks' /\ Forall2 pulled Ks' Ks).
    { intros l Ks F. induction F as [|o K l Ks H F IH]; intro U; [exists []; split; constructor|]. cbn [flat_map] in U.
      destruct H as (K' & D & E); [intros g I; apply U, in_or_app; auto|]. destruct IH as (Ks' & D' & E'); [intros g I; apply U, in_or_app; auto|].
      exists (K' :: Ks'). split; constructor; assumption. }
    apply (denotes_induction w n vals sq (fun o K => (forall g, In g (all_gates o) -> usable n vals g /\ dense_gate g) -> exists K', denotes w n vals sq (rename f o) K' /\ pulled K' K)).
    - intros g M cs ts HG HD HN _. exists (gate_op M (map f cs) (map f ts)). split; [constructor; auto; apply rename_gate_on, HG|].
      apply pulled_kernel, (go_qubits _ _ _ _ _ _ HG).
    - intros g K (u & cs & E & Mu & GC & GV & _ & ->) HN U. destruct (U g (or_introl eq_refl)) as [(M & cs' & ts & HG) HD].
      assert (EC : cs' = cs) by (rewrite <- (ctrl_of_spec _ _ GC), (ctrl_of_spec _ _ (go_control _ _ _ _ _ _ HG)); reflexivity). subst cs'.
      pose proof (go_target _ _ _ _ _ _ HG) as ET. subst ts. destruct (unitary_of_ok w vals g M (go_matrix _ _ _ _ _ _ HG) HD) as (u' & E' & _ & KU). rewrite E in E'; injection E' as <-.
      exists (gate_op M (map f cs) (map f (target g))). split; [constructor; auto; apply rename_gate_on, HG|].
      eapply pulled_ext_r; [apply pulled_kernel, GV|]. apply ctrl_kernel_ext, keq_sym, KU.
    - intros l Ks NE F U. destruct (LIST l Ks F U) as (Ks' & D & E). exists (ksum Ks'). split; [|apply pulled_sum, E]. cbn [rename]. constructor; [|exact D]. destruct l; [contradiction|discriminate].
    - intros o K p c H Ec U. destruct H as (K' & D & E); [intros g I; apply U; cbn [all_gates flat_map]; rewrite app_nil_r; exact I|].
      exists (kscale (RtoC c) K'). split; [cbn [rename map]; constructor; assumption|apply pulled_scale, E].
    - intros l Ks p c ES F Ec U. destruct (LIST l Ks F U) as (Ks' & D & E). exists (kscale (RtoC c) (kprod n Ks')).
      split; [cbn [rename]; apply den_multiple; [eapply pulled_sequences; eassumption|assumption|assumption]|apply pulled_scale, pulled_prod, E].
    - intros l Ks ES F U. destruct (LIST l Ks F U) as (Ks' & D & E). exists (kprod n Ks'). split; [cbn [rename]; constructor; [eapply pulled_sequences; eassumption|assumption]|apply pulled_prod, E].
    - intros m l fp Ks ES F U. destruct (LIST l Ks F U) as (Ks' & D & E). exists (kprod n Ks'). split; [cbn [rename]; constructor; [eapply pulled_sequences; eassumption|assumption]|apply pulled_prod, E].
  Qed.
  Lemma rename_observable : forall w vals sq l K, observable_on w n vals sq l K -> (forall g, In g (flat_map all_gates l) -> usable n vals g /\ dense_gate g) ->
      exists K', observable_on w n vals sq (map (rename f) l) K' /\ pulled K' K.
  Proof.
    intros w vals sq l K (Ks & NE & F & ->) U.
    assert (X : exists Ks', Forall2 (denotes w n vals sq) (map (rename f) l) Ks' /\ Forall2 pulled Ks' Ks).
    { clear NE. induction F as [|o K l Ks D F IH]; [exists []; split; constructor|]. cbn [flat_map] in U.
      destruct (rename_denotes w vals sq o K D) as (K' & D1 & E1); [intros g I; apply U, in_or_app; auto|]. destruct IH as (Ks' & D' & E'); [intros g I; apply U, in_or_app; auto|].
      exists (K' :: Ks'). split; constructor; assumption. }
    destruct X as (Ks' & D & E). exists (ksum Ks'). split; [|apply pulled_sum, E]. exists Ks'. split; [destruct l; [contradiction|discriminate]|auto].
  Qed.
  Lemma renamed_density : forall s s', renamed n f s s' -> pulled (density_of s') (density_of s).
  Proof.
    intros [a|a|a] [b|b|b] H; try contradiction; cbn [renamed density_of] in *.
    - intros x y Hx Hy. unfold pure_density. rewrite (H x Hx), (H y Hy). reflexivity.
    - intros x y Hx Hy. apply H; assumption.
  Qed.
  Lemma mixes_rename : forall st st' gs, renamed n f st st' -> (mixes st' (map (rename_gate f) gs) <-> mixes st gs).
  Proof.
    intros st st' gs H. split; intros [(a & ->)|(g & I & N)].
    - destruct st; try contradiction. left; eauto.
    - apply in_map_iff in I as (g' & <- & I). right. exists g'. auto.
    - destruct st'; try contradiction. left; eauto.
    - right. exists (rename_gate f g). split; [apply in_map, I|exact N].
  Qed.
  Lemma c87_rename : forall w vals c gs st st', set_order (set_iter w) -> runnable n vals c gs -> state_of n st -> state_of n st' -> renamed n f st st' ->
      (exists out out', run w c st vals = Ok (Some out) /\ run w (rename f c) st' vals = Ok (Some out') /\ renamed n f out out') /\
      forall l K mode key, flat_values vals -> readable w n vals st gs l K -> (forall g, In g (flat_map all_gates l) -> usable n vals g /\ dense_gate g) ->
        (mixes st gs -> increasing_support w (map (rename f) l)) -> exact_mode mode ->
        exists e, expectation w st c [l] vals mode 0 key = Ok [e] /\ expectation w st' (rename f c) [map (rename f) l] vals mode 0 key = Ok [e].
  Proof.
    intros w vals c gs st st' SO RN HT HT' HR. pose proof (rename_runnable vals c gs RN) as RN'. pose proof RN as (HS & NE & FU & FD & FN).
    pose proof (pulled_evolve vals gs _ _ FU FN (renamed_density st st' HR)) as PE. split.
    - destruct (output_spec w n vals c gs st SO RN HT) as (o & E & _ & _ & So & KO & M & _).
      destruct (output_spec w n vals _ _ st' SO RN' HT') as (o' & E' & _ & _ & So' & KO' & M' & _). exists o, o'. split; [exact E|split; [exact E'|]].
      destruct (mixes_dec st gs (or_intror Logic.I)) as [MX|NM].
      + destruct (M MX) as (a & ->). destruct (M' (proj2 (mixes_rename st st' gs HR) MX)) as (b & ->). cbn [renamed density_of] in *.
        intros x y Hx Hy. rewrite (KO' x y Hx Hy), (PE x y Hx Hy). symmetry. apply KO; apply pull_bits; assumption.
      + destruct st as [psi|b|rho]; [|destruct HT|elim NM; left; eauto]. destruct st' as [psi'|b|rho]; try contradiction.
        assert (NN : Forall noiseless gs) by (destruct (noisy_or_not gs) as [X|X]; [exact X|elim NM; right; exact X]).
        destruct (usable_circuit _ _ _ FU) as (U & HC). destruct (pulled_circuit vals gs U HC) as (U' & HC' & PU).
        assert (NN' : Forall noiseless (map (rename_gate f) gs)) by (apply Forall_map; eapply Forall_impl; [|exact NN]; intros g H; exact H).
        destruct RN' as (HS' & _ & _ & FD' & _).
        destruct (call_pure w n vals c gs U psi HS FD NN HC HT) as (a & Ea & _ & Va). destruct (call_pure w n vals _ _ U' psi' HS' FD' NN' HC' HT') as (b & Eb & _ & Vb).
        rewrite E in Ea; injection Ea as ->. rewrite E' in Eb; injection Eb as ->. cbn [renamed] in *. intros x Hx. change (read_through n f x) with (pull x). rewrite (Vb x Hx), (Va _ (pull_bits x Hx)).
        unfold apply_kernel. rewrite <- (pull_sum (fun y => Cmul (U (pull x) y) (amp psi y))). apply csum_ext; intros y Hy. rewrite (PU x y Hx Hy), (HR y Hy). reflexivity.
    - intros l K mode key FV [(sq & HO) HD] LU IS EM.
      assert (X : exists K', readable w n vals st' (map (rename_gate f) gs) (map (rename f) l) K' /\ pulled K' K).
      { destruct (mixes_dec st gs (or_intror Logic.I)) as [MX|NM].
        - destruct (HD MX) as [HO' _]. destruct (rename_observable w vals false l K HO' LU) as (K' & O & PK). exists K'. split; [|exact PK]. split; [exists false; exact O|]. intros _. split; auto.
        - destruct (rename_observable w vals sq l K HO LU) as (K' & O & PK). exists K'. split; [|exact PK]. split; [exists sq; exact O|]. intro MX. elim NM. apply (mixes_rename st st' gs HR), MX. }
      destruct X as (K' & HR' & PK). exists (mean_density n K (evolve n vals gs (density_of st))). split.
      + apply (exact_spec w n vals c gs st [l] [K]); auto; [discriminate|]. constructor; [|constructor]. split; [exists sq; exact HO|exact HD].
      + rewrite (exact_spec w n vals (rename f c) (map (rename_gate f) gs) st' [map (rename f) l] [K'] mode key); auto; [|discriminate]. cbn [map]. do 2 f_equal. unfold mean_density. f_equal.
        apply pulled_trace, pulled_mul; assumption.
  Qed.
End Renaming.
Lemma c87_relabel : forall n f w vals c gs st st', permutes n f -> set_order (set_iter w) -> runnable n vals c gs -> state_of n st -> state_of n st' -> renamed n f st st' ->
    (exists out out', run w c st vals = Ok (Some out) /\ run w (rename f c) st' vals = Ok (Some out') /\ renamed n f out out') /\
    forall l K mode key, flat_values vals -> readable w n vals st gs l K -> (forall g, In g (flat_map all_gates l) -> usable n vals g /\ dense_gate g) ->
      (mixes st gs -> increasing_support w (map (rename f) l)) -> exact_mode mode ->
      exists e, expectation w st c [l] vals mode 0 key = Ok [e] /\ expectation w st' (rename f c) [map (rename f) l] vals mode 0 key = Ok [e].
Proof. intros n f w vals c gs st st' P. exact (c87_rename n f P w vals c gs st st'). Qed.
