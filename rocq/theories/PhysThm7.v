(** * Irrelevant differences between circuits; lists of observables *)
From Coq Require Import String List Arith Bool Reals Lia Lra ZArith Permutation.
From Verif Require Import Cplx Py PyFacts Ndarray OperatorUtils Sparse Matrices Noise Gates Apply Composite Conversion Shots Gpsr Api
  Spec SpecFacts Deriv GateSpec PropSpec NoiseSpec SampleSpec ExpectSpec GpsrSpec GateFacts CircuitFacts AlgebraFacts ApplyThm GateThm TensorFacts TensorThm
  KrausThm NoiseThm NoiseThm2 SeqThm SampleThm ShotsSpec ShotsThm ExpectThm ExpectThm2 GpsrFacts GpsrThm StructSpec PhysSpec PhysThm PhysThm2.
Import ListNotations.
Local Open Scope nat_scope.

(** ** gates with the same operator *)
Definition alike (n : nat) (vals : values) (g g' : gate) : Prop :=
  exists M cs ts M' cs' ts', gate_on n vals g M cs ts /\ gate_on n vals g' M' cs' ts' /\ keq n (gate_op M cs ts) (gate_op M' cs' ts') /\
    noise g' = noise g /\ sparse g' = sparse g /\ length ts = length ts' /\ (noise g <> None -> ts' = ts).
Lemma all_ones_perm : forall x cs cs', Permutation cs cs' -> all_ones (bits_at x cs) = all_ones (bits_at x cs').
Proof.
  intros x cs cs' H. unfold all_ones, bits_at. induction H as [|c l l' H IH|a b l|l1 l2 l3 H1 IH1 H2 IH2]; [reflexivity| | |congruence]; cbn [map forallb].
  - rewrite IH; reflexivity.
  - destruct (Nat.eqb 1 (nth a x 0)), (Nat.eqb 1 (nth b x 0)); reflexivity.
Qed.
Lemma swap_kernel : forall n cs a b, valid_qubits n (cs ++ [a; b]) -> keq n (ctrl_kernel SWAP_matrix cs [a; b]) (ctrl_kernel SWAP_matrix cs [b; a]).
Proof.
  intros n cs a b [ND V] x y Hx Hy. unfold ctrl_kernel. destruct (all_ones (bits_at x cs)); [|reflexivity].
  assert (N : a <> b). { apply NoDup_app_remove_l in ND. inversion ND as [|? ? N _]; subst. intro E; apply N; left; symmetry; exact E. }
  pose proof (bitstrings_nth_lt n x a Hx) as Ba. pose proof (bitstrings_nth_lt n x b Hx) as Bb. cbn [length bitstrings map app bits_at csum overwrite].
  assert (OV : forall u v, set_bit (set_bit x b v) a u = set_bit (set_bit x a u) b v).
  { intros u v. apply list_ext; [rewrite !set_bit_length; reflexivity|]. intros k Hk. rewrite !set_bit_length in Hk.
    destruct (Nat.eq_dec k a) as [->|Na]; [rewrite nth_set_bit_eq by (rewrite set_bit_length; exact Hk); rewrite nth_set_bit_ne by exact N; rewrite nth_set_bit_eq by exact Hk; reflexivity|].
    rewrite nth_set_bit_ne by exact Na. destruct (Nat.eq_dec k b) as [->|Nb];
      [rewrite !nth_set_bit_eq by (rewrite ?set_bit_length; exact Hk); reflexivity|rewrite !nth_set_bit_ne by assumption; reflexivity]. }
  unfold SWAP_matrix. destruct (nth a x 0) as [|[|?]]; try lia; destruct (nth b x 0) as [|[|?]]; try lia; cbn [Nat.eqb andb]; rewrite !OV; ring.
Qed.
Lemma same_alike : forall n vals g g', usable n vals g -> noise_ok g -> same_gate g g' -> alike n vals g g'.
Proof.
  intros n vals g g' (M & cs & ts & HG) HN H. destruct H as [g|g ds cs' HC HP|a b c ns sp p s].
  - exists M, cs, ts, M, cs, ts. repeat (split; [first [assumption|reflexivity|apply keq_refl]|]). reflexivity.
  - assert (E : ds = cs) by (rewrite <- (ctrl_of_spec _ _ HC), (ctrl_of_spec _ _ (go_control _ _ _ _ _ _ HG)); reflexivity). subst ds. destruct HG as [HM HC' HT HV].
    exists M, cs, ts, M, cs', ts. split; [split; assumption|]. split; [|split; [|split; [reflexivity|split; [reflexivity|split; reflexivity]]]].
    + split; [|apply cq_ints|exact HT|].
      * destruct HM as [nm M C N L I|C N L|nm R_ t C N L A I|t C L A]; [eapply gm_fixed|apply gm_SWAP|eapply gm_rotation|apply gm_PHASE]; eauto.
      * destruct HV as [N F]. split; [eapply Permutation_NoDup; [|exact N]|eapply Permutation_Forall; [|exact F]]; apply Permutation_app_tail, HP.
    + intros x y _ _. unfold gate_op, ctrl_kernel. rewrite (all_ones_perm x cs cs' HP). reflexivity.
  - destruct HG as [HM HC HT HV]. cbn [target control] in *. subst ts. assert (EM : M = SWAP_matrix).
    { destruct HM as [nm M C N L I|C N L|nm R_ t C N L A I|t C L A]; try reflexivity; cbn [gclass generator_name target List.length] in *; discriminate. }
    subst M. exists SWAP_matrix, cs, [a; b], SWAP_matrix, cs, [b; a]. split; [split; auto|]. split; [|split; [apply swap_kernel, HV|]].
    + split; [apply gm_SWAP; reflexivity|exact HC|reflexivity|]. destruct HV as [N F].
      split; [eapply Permutation_NoDup; [|exact N]|eapply Permutation_Forall; [|exact F]]; apply Permutation_app_head, perm_swap.
    + do 3 (split; [reflexivity|]). intro NN. unfold noise_ok in HN. cbn [noise target List.length] in *. destruct ns; [destruct HN; discriminate|contradiction].
Qed.
Lemma alike_usable : forall n vals g g', alike n vals g g' -> usable n vals g'.
Proof. intros n vals g g' (M & cs & ts & M' & cs' & ts' & _ & H & _). exists M', cs', ts'. exact H. Qed.
Lemma alike_noise_ok : forall n vals g g', alike n vals g g' -> noise_ok g -> noise_ok g'.
Proof.
  intros n vals g g' (M & cs & ts & M' & cs' & ts' & HG & HG' & _ & N & _ & L & _) H. unfold noise_ok in *. rewrite N, (go_target _ _ _ _ _ _ HG'). rewrite (go_target _ _ _ _ _ _ HG) in H. rewrite <- L. exact H.
Qed.
Lemma alike_step : forall n vals g g' r, alike n vals g g' -> keq n (step n vals g r) (step n vals g' r).
Proof.
  intros n vals g g' r (M & cs & ts & M' & cs' & ts' & HG & HG' & K & N & _ & _ & T). unfold step.
  rewrite (mat_of_spec _ _ _ (go_matrix _ _ _ _ _ _ HG)), (mat_of_spec _ _ _ (go_matrix _ _ _ _ _ _ HG')), (ctrl_of_spec _ _ (go_control _ _ _ _ _ _ HG)), (ctrl_of_spec _ _ (go_control _ _ _ _ _ _ HG')),
    (go_target _ _ _ _ _ _ HG), (go_target _ _ _ _ _ _ HG'), N.
  assert (S : keq n (sandwiched n (gate_op M cs ts) r) (sandwiched n (gate_op M' cs' ts') r)) by (apply sandwiched_ext; [exact K|apply keq_refl]).
  destruct (noise g) as [l|]; [|exact S]. rewrite T by discriminate. apply (linear_channels n ts (Some l)). rewrite <- (T ltac:(discriminate)) at 2. exact S.
Qed.
Lemma alike_evolve : forall n vals gs gs', Forall2 (alike n vals) gs gs' -> forall r, keq n (evolve n vals gs r) (evolve n vals gs' r).
Proof.
  intros n vals gs gs' F. induction F as [|g g' gs gs' H F IH]; intro r; [apply keq_refl|]. cbn [evolve]. eapply keq_trans; [apply IH|]. apply evolve_ext, alike_step, H.
Qed.
Lemma alike_circuit : forall n vals gs gs', Forall2 (alike n vals) gs gs' -> exists U U', circuit_on n vals gs U /\ circuit_on n vals gs' U' /\ keq n U U'.
Proof.
  intros n vals gs gs' F. induction F as [|g g' gs gs' (M & cs & ts & M' & cs' & ts' & HG & HG' & K & _) F (U & U' & C & C' & E)]; [exists kid, kid; split; [constructor|split; [constructor|apply keq_refl]]|].
  exists (kmul n U (gate_op M cs ts)), (kmul n U' (gate_op M' cs' ts')). split; [econstructor; eassumption|split; [econstructor; eassumption|]]. apply kmul_ext; assumption.
Qed.
Lemma alike_run : forall w n vals c c' gs gs' st, set_order (set_iter w) -> runnable n vals c gs -> sequence_of c' gs' -> Forall2 (alike n vals) gs gs' -> state_of n st ->
    exists out, run w c st vals = Ok (Some out) /\ run w c' st vals = Ok (Some out).
Proof.
  intros w n vals c c' gs gs' st SO RN HS' F HT.
  assert (RN' : runnable n vals c' gs').
  { destruct RN as (_ & NE & FU & FD & FN). split; [exact HS'|]. split; [inversion F; subst; [contradiction|discriminate]|]. clear NE HS'.
    induction F as [|g g' gs gs' H F IH]; [repeat split; constructor|]. inversion FU; inversion FD; inversion FN; subst. destruct IH as (A & B & D); auto. repeat split; constructor; auto.
    - eapply alike_usable, H.
    - destruct H as (? & ? & ? & ? & ? & ? & _ & _ & _ & _ & S & _). unfold dense_gate in *. rewrite S. assumption.
    - eapply alike_noise_ok; eassumption. }
  assert (MM : mixes st gs <-> mixes st gs').
  { assert (X : (exists g, In g gs /\ noise g <> None) <-> (exists g, In g gs' /\ noise g <> None)); [|unfold mixes; tauto].
    clear - F. induction F as [|g g' gs gs' H F IH]; [tauto|]. destruct H as (? & ? & ? & ? & ? & ? & _ & _ & _ & N & _). split; intros (h & [<-|I] & Q).
    - exists g'. split; [left; reflexivity|congruence].
    - destruct (proj1 IH (ex_intro _ h (Logic.conj I Q))) as (k & Ik & Qk). exists k; split; [right; exact Ik|exact Qk].
    - exists g. split; [left; reflexivity|congruence].
    - destruct (proj2 IH (ex_intro _ h (Logic.conj I Q))) as (k & Ik & Qk). exists k; split; [right; exact Ik|exact Qk]. }
  destruct (output_spec w n vals c gs st SO RN HT) as (o & E & _ & _ & So & K & M & P). destruct (output_spec w n vals c' gs' st SO RN' HT) as (o' & E' & _ & _ & So' & K' & M' & P').
  exists o. split; [exact E|]. rewrite E'. do 2 f_equal. destruct (mixes_dec st gs (or_intror Logic.I)) as [MX|NM].
  - destruct (M MX) as (a & ->), (M' (proj1 MM MX)) as (b & ->). f_equal. apply (density_ext n); auto. cbn [density_of] in K, K'. rewrite K, K'. apply keq_sym, alike_evolve, F.
  - destruct st as [psi|b|rho]; [|destruct HT|elim NM; left; eauto].
    assert (NN : Forall noiseless gs) by (destruct (noisy_or_not gs) as [X|X]; [exact X|elim NM; right; exact X]).
    assert (NN' : Forall noiseless gs') by (destruct (noisy_or_not gs') as [X|X]; [exact X|elim NM; apply MM; right; exact X]).
    destruct (alike_circuit n vals gs gs' F) as (U & U' & HC & HC' & EU). destruct RN as (HS & _ & _ & FD & _), RN' as (_ & _ & _ & FD' & _).
    destruct (call_pure w n vals c gs U psi HS FD NN HC HT) as (a & Ea & Sa & Va). destruct (call_pure w n vals c' gs' U' psi HS' FD' NN' HC' HT) as (b & Eb & Sb & Vb).
    rewrite E in Ea; injection Ea as ->. rewrite E' in Eb; injection Eb as ->. f_equal. apply (state_ext n); auto. intros y Hy. rewrite (Va y Hy), (Vb y Hy).
    symmetry. apply apply_kernel_ext; [exact EU|apply veq_refl|exact Hy].
Qed.
Lemma c89_same : forall w n vals c c' gs gs' st, set_order (set_iter w) -> runnable n vals c gs -> sequence_of c' gs' -> Forall2 same_gate gs gs' -> state_of n st ->
    exists out, run w c st vals = Ok (Some out) /\ run w c' st vals = Ok (Some out).
Proof.
  intros w n vals c c' gs gs' st SO RN HS' F HT. eapply alike_run; try eassumption. destruct RN as (_ & _ & FU & _ & FN). clear HS'.
  induction F as [|g g' gs gs' H F IH]; constructor; inversion FU; inversion FN; subst; [apply same_alike; assumption|apply IH; assumption].
Qed.

(** ** noise=() *)
Lemma drop_usable : forall n vals g, usable n vals g -> usable n vals (drop_empty_noise g).
Proof.
  intros n vals g (M & cs & ts & [HM HC HT HV]). unfold drop_empty_noise. destruct (noise g) as [[|? ?]|]; try (exists M, cs, ts; split; assumption).
  exists M, cs, ts. split; auto. destruct HM as [nm M C N L I|C N L|nm R_ t C N L A I|t C L A]; [eapply gm_fixed|apply gm_SWAP|eapply gm_rotation|apply gm_PHASE]; eauto.
Qed.
Lemma drop_step : forall n vals g r, step n vals (drop_empty_noise g) r = step n vals g r.
Proof. intros n vals g r. unfold drop_empty_noise, step. destruct (noise g) as [[|? ?]|] eqn:E; rewrite ?E; reflexivity. Qed.
Lemma drop_evolve : forall n vals gs r, evolve n vals (map drop_empty_noise gs) r = evolve n vals gs r.
Proof. intros n vals gs. induction gs as [|g gs IH]; intro r; [reflexivity|]. cbn [map evolve]. rewrite IH, drop_step. reflexivity. Qed.
Lemma drop_runnable : forall n vals c c' gs, runnable n vals c gs -> sequence_of c' (map drop_empty_noise gs) -> runnable n vals c' (map drop_empty_noise gs).
Proof.
  intros n vals c c' gs (_ & NE & FU & FD & FN) HS. split; [exact HS|]. split; [destruct gs; [contradiction|discriminate]|]. split; [|split]; apply Forall_map.
  - eapply Forall_impl; [|exact FU]. intro g; apply drop_usable.
  - eapply Forall_impl; [|exact FD]. intros g H. unfold drop_empty_noise. destruct (noise g) as [[|? ?]|]; exact H.
  - eapply Forall_impl; [|exact FN]. intros g H. unfold drop_empty_noise, noise_ok in *. destruct (noise g) as [[|? ?]|] eqn:E; cbn [noise]; rewrite ?E; auto.
Qed.
Lemma mixes_drop : forall st gs, mixes st (map drop_empty_noise gs) -> mixes st gs.
Proof.
  intros st gs [H|(g & I & N)]; [left; exact H|right]. apply in_map_iff in I as (g' & <- & I). exists g'. split; [exact I|]. intro E. apply N. unfold drop_empty_noise. rewrite E. exact E.
Qed.
Lemma c90_observed : forall w n vals c c' gs st, set_order (set_iter w) -> runnable n vals c gs -> sequence_of c' (map drop_empty_noise gs) -> state_of n st ->
    (exists out out', run w c st vals = Ok (Some out) /\ run w c' st vals = Ok (Some out') /\ keq n (density_of out) (density_of out')) /\
    (forall obs Ks mode key, flat_values vals -> obs <> [] -> Forall2 (readable w n vals st gs) obs Ks -> exact_mode mode ->
       exists es, expectation w st c obs vals mode 0 key = Ok es /\ expectation w st c' obs vals mode 0 key = Ok es) /\
    (forall k, choice_contract w -> 1 <= n -> (1 <= k)%Z ->
       exists counts, fst (sample w st c vals k) = Ok counts /\ fst (sample w st c' vals k) = Ok counts).
Proof.
  intros w n vals c c' gs st SO RN HS' HT. pose proof (drop_runnable n vals c c' gs RN HS') as RN'. split; [|split].
  - destruct (output_spec w n vals c gs st SO RN HT) as (o & E & _ & _ & So & K & _). destruct (output_spec w n vals c' _ st SO RN' HT) as (o' & E' & _ & _ & So' & K' & _).
    exists o, o'. split; [exact E|split; [exact E'|]]. rewrite K, K', drop_evolve. apply keq_refl.
  - intros obs Ks mode key FV NO F EM. eexists; split; [apply (exact_spec w n vals c gs st obs Ks); assumption|].
    rewrite (exact_spec w n vals c' (map drop_empty_noise gs) st obs Ks mode key); auto.
    + f_equal. apply map_ext; intro K. rewrite drop_evolve. reflexivity.
    + eapply F2_impl; [|exact F]. intros l K. apply readable_less, mixes_drop.
  - intros k CC Hn Hk. eexists; split; [apply (sample_spec w n vals c gs st k); assumption|]. rewrite (sample_spec w n vals c' (map drop_empty_noise gs) st k) by assumption.
    do 3 f_equal. apply map_ext_in; intros x Hx. rewrite drop_evolve. reflexivity.
Qed.
(** the kind of state differs: every gate with noise=() on every state vector *)
Lemma c90_refuted : forall w n vals g psi, set_order (set_iter w) -> usable n vals g -> dense_gate g -> noise g = Some [] -> length (target g) = 1 -> is_state n psi ->
    exists rho phi, run w (OpSequence [OGate g]) (SDense psi) vals = Ok (Some (SDM rho)) /\
      run w (OpSequence [OGate (drop_empty_noise g)]) (SDense psi) vals = Ok (Some (SDense phi)).
Proof.
  intros w n vals g psi SO HU HD EN LT HS.
  assert (SQ : forall g, sequence_of (OpSequence [OGate g]) [g]) by (intro h; apply (so_seq [OGate h] [[h]]); repeat constructor).
  assert (RN : runnable n vals (OpSequence [OGate g]) [g]).
  { split; [apply SQ|split; [discriminate|]]. split; [|split]; apply Forall_cons; try apply Forall_nil; auto. unfold noise_ok. rewrite EN. split; [exact LT|constructor]. }
  pose proof (drop_runnable n vals _ (OpSequence [OGate (drop_empty_noise g)]) [g] RN (SQ _)) as RN'.
  destruct (output_spec w n vals _ _ (SDense psi) SO RN HS) as (o & E & _ & _ & _ & _ & M & _). destruct M as (a & ->); [right; exists g; split; [left; reflexivity|congruence]|].
  destruct (output_spec w n vals _ _ (SDense psi) SO RN' HS) as (o' & E' & _ & _ & _ & _ & _ & P).
  destruct P as (b & ->); [|exists a, b; auto]. intros [(z & Q)|(h & [<-|[]] & N)]; [discriminate|]. apply N. unfold drop_empty_noise. rewrite EN. reflexivity.
Qed.

(** ** lists of observables *)
Lemma mapM_iff : forall {A B} (h : A -> res B) l ys, mapM h l = Ok ys <-> Forall2 (fun x y => h x = Ok y) l ys.
Proof.
  intros A B h l. induction l as [|x l IH]; intro ys; cbn [mapM].
  - split; intro H; [injection H as <-; constructor|inversion H; reflexivity].
  - destruct (h x) as [y|e] eqn:E; cbn [bind].
    + destruct (mapM h l) as [zs|e] eqn:EL; cbn [bind].
      * split; intro H.
        -- injection H as <-. constructor; [exact E|]. apply IH; reflexivity.
        -- inversion H as [|? y' ? zs' H1 H2]; subst. rewrite E in H1; injection H1 as <-. apply IH in H2. injection H2 as <-. reflexivity.
      * split; intro H; [discriminate|]. inversion H as [|? y' ? zs' H1 H2]; subst. apply IH in H2; discriminate.
    + split; intro H; [discriminate|]. inversion H as [|? y' ? zs' H1 H2]; subst. rewrite E in H1; discriminate.
Qed.
Lemma stack_iff : forall l es, stack l = Ok es <-> l <> [] /\ es = l.
Proof. intros [|x l] es; cbn [stack]; split; intro H; [discriminate|destruct H; congruence|injection H as <-; split; [discriminate|reflexivity]|destruct H as [_ ->]; reflexivity]. Qed.
Lemma listed : forall (h : list oper -> res R) obs es, (exists ys, mapM h obs = Ok ys /\ stack ys = Ok es) <-> obs <> [] /\ Forall2 (fun l e => h l = Ok e) obs es.
Proof.
  intros h obs es. split.
  - intros (ys & E & S). apply stack_iff in S as [N ->]. apply mapM_iff in E. split; [intro Q; subst; inversion E; congruence|exact E].
  - intros [N F]. exists es. split; [apply mapM_iff, F|]. apply stack_iff. split; [|reflexivity]. inversion F; subst; [contradiction|discriminate].
Qed.
Lemma one_listed : forall (h : list oper -> res R) l e, (exists ys, mapM h [l] = Ok ys /\ stack ys = Ok [e]) <-> h l = Ok e.
Proof.
  intros h l e. rewrite listed. split; [intros [_ F]; inversion F; assumption|]. intro H. split; [discriminate|repeat constructor; exact H].
Qed.
Lemma F2_iff : forall {A B} (Q Q' : A -> B -> Prop) l m, (forall a b, Q a b <-> Q' a b) -> (Forall2 Q l m <-> Forall2 Q' l m).
Proof. intros A B Q Q' l m H. split; intro F; (eapply F2_impl; [|exact F]); intros a b X; apply H, X. Qed.
Lemma c92_each : forall w st c obs vals mode key es, unsampled mode ->
    (expectation w st c obs vals mode 0 key = Ok es <-> obs <> [] /\ Forall2 (fun l e => expectation w st c [l] vals mode 0 key = Ok [e]) obs es).
Proof.
  intros w st c obs vals mode key es UN.
  assert (GEN : forall (E : list (list oper) -> res (list R)) (h : list oper -> res R),
    (forall o e, E o = Ok e <-> exists ys, mapM h o = Ok ys /\ stack ys = Ok e) -> (E obs = Ok es <-> obs <> [] /\ Forall2 (fun l e => E [l] = Ok [e]) obs es)).
  { intros E h HE. rewrite HE, listed. assert (X : forall l e, h l = Ok e <-> E [l] = Ok [e]) by (intros l e; rewrite HE, one_listed; tauto). rewrite (F2_iff _ _ obs es X). tauto. }
  assert (BAD : forall (E : list (list oper) -> res (list R)), (forall o, exists x, E o = Err x) -> (E obs = Ok es <-> obs <> [] /\ Forall2 (fun l e => E [l] = Ok [e]) obs es)).
  { intros E HE. split.
    - destruct (HE obs) as (x & ->). discriminate.
    - intros [N F]. inversion F as [|l e ? ? H1 H2]; subst; [contradiction|]. destruct (HE [l]) as (x & Q). rewrite Q in H1; discriminate. }
  destruct UN as [-> | [-> | ->]]; cbn [expectation Z.ltb Z.eqb Z.compare].
  - unfold ad_expectation. destruct (values_processing vals) as [co|x] eqn:EV; cbn [bind].
    + apply (GEN (fun o => let! outputs := mapM (fun l => let! out := run_flat w st c (fst co) in ad_single w out l (snd co)) o in stack outputs)
        (fun l => let! out := run_flat w st c (fst co) in ad_single w out l (snd co))).
      intros o e. destruct (mapM _ o) as [ys|x]; cbn [bind]; split; [intro H; eauto|intros (ys' & Q & S); congruence|discriminate|intros (ys' & Q & _); discriminate].
    + apply (BAD (fun _ => Err x)). eauto.
  - destruct (gates_of (iter c)) as [gs|x] eqn:EG; cbn [bind]; [|apply (BAD (fun _ => Err x)); eauto].
    apply (GEN (fun o => analytical_expectation w st (GMany gs) o vals) (fun l => let! out := apply_gates w st (GMany gs) vals UNITARY false true in ad_single w out l vals)).
    intros o e. unfold analytical_expectation. destruct (mapM _ o) as [ys|x]; cbn [bind]; split; [intro H; exists ys; split; [reflexivity|exact H]|intros (ys' & Q & S); injection Q as <-; exact S|discriminate|intros (ys' & Q & _); discriminate].
  - destruct st as [a|a|a]; [| |apply (BAD (fun _ => Err TypeError)); eauto].
    + apply (GEN (fun o => adjoint_expectation w (SDense a) c o vals) (fun l => adjoint_single w (SDense a) c l vals)).
      intros o e. unfold adjoint_expectation. destruct (mapM _ o) as [ys|x]; cbn [bind]; split; [intro H; eauto|intros (ys' & Q & S); congruence|discriminate|intros (ys' & Q & _); discriminate].
    + apply (GEN (fun o => adjoint_expectation w (SSparse a) c o vals) (fun l => adjoint_single w (SSparse a) c l vals)).
      intros o e. unfold adjoint_expectation. destruct (mapM _ o) as [ys|x]; cbn [bind]; split; [intro H; eauto|intros (ys' & Q & S); congruence|discriminate|intros (ys' & Q & _); discriminate].
Qed.
