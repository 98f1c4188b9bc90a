(** * Noisy evolution of density matrices (C28-C32) *)
From Coq Require Import String List Arith Bool Reals Lia Lra Permutation.
From Verif Require Import Cplx Py PyFacts Ndarray NdFacts NdPerm OperatorUtils ApplyOperator
  Spec SpecFacts ApplyFacts DmFacts ExpandFacts Sparse Matrices Noise Gates Apply Composite
  GateSpec PropSpec NoiseSpec GateFacts CircuitFacts AlgebraFacts GroupFacts ApplyThm TensorFacts TensorThm GateThm KrausThm.
Import ListNotations.
Local Open Scope nat_scope.

Lemma sandwiched_ext : forall n A A' r r', keq n A A' -> keq n r r' -> keq n (sandwiched n A r) (sandwiched n A' r').
Proof. intros; unfold sandwiched; apply kmul_ext; [apply kmul_ext|apply kadj_ext]; assumption. Qed.
Lemma kraus_sum_ext : forall n q ks r r', keq n r r' -> keq n (kraus_sum n q ks r) (kraus_sum n q ks r').
Proof.
  intros n q ks r r' E; unfold kraus_sum; apply ksum_keq. induction ks; simpl; constructor; auto.
  apply sandwiched_ext; [apply keq_refl|exact E].
Qed.
Lemma through_ext : forall n q l r r', through n q l r r' -> forall s, keq n s r -> exists s', through n q l s s' /\ keq n s' r'.
Proof.
  intros n q l r r' H; induction H as [rho|i ks l rho rho' EK HT IH]; intros s E.
  - exists s; split; [constructor|exact E].
  - destruct (IH (kraus_sum n q ks s) (kraus_sum_ext n q ks _ _ E)) as (s' & T & E'). exists s'; split; [econstructor; eauto|exact E'].
Qed.
Lemma through_det : forall n q l r r1, through n q l r r1 -> forall r2, through n q l r r2 -> r1 = r2.
Proof.
  intros n q l r r1 H; induction H as [rho|i ks l rho rho' EK HT IH]; intros r2 H2; inversion H2; subst; [reflexivity|].
  apply IH. congruence.
Qed.

Lemma add_density : forall n a b, is_density n a -> is_density n b ->
    exists r, add a b = Ok r /\ is_density n r /\ keq n (rho_entry r) (kadd (rho_entry a) (rho_entry b)).
Proof.
  intros n a b [SA WA] [SB WB]. unfold add; rewrite zip_arr_eq by congruence.
  eexists; split; [reflexivity|]; split; [split; [exact SA|apply wf_build]|].
  intros x y Hx Hy; unfold rho_entry, kadd. rewrite get_build; [reflexivity|].
  rewrite SA; apply bitstrings_inb, bits_2n; eauto 6.
Qed.
Lemma foldM_add_density : forall n es Ks acc A, Forall2 (fun e K => is_density n e /\ keq n (rho_entry e) K) es Ks ->
    is_density n acc -> keq n (rho_entry acc) A ->
    exists r, foldM add es acc = Ok r /\ is_density n r /\ keq n (rho_entry r) (kadd A (ksum Ks)).
Proof.
  intros n es Ks acc A F; revert acc A; induction F as [|e K es Ks [De Ke] F IH]; intros acc A Da Ka.
  - exists acc; split; [reflexivity|split; [exact Da|]]. intros x y Hx Hy; rewrite (Ka x y Hx Hy); unfold kadd; simpl. apply C_ext; simpl; ring.
  - destruct (add_density n acc e Da De) as (r & Er & Dr & Kr). cbn [foldM]; rewrite Er; cbn [bind].
    destruct (IH r (kadd A K) Dr) as (r' & Er' & Dr' & Kr').
    + rewrite Kr; apply kadd_ext; assumption.
    + exists r'; split; [exact Er'|split; [exact Dr'|]]. rewrite Kr'. intros x y Hx Hy; unfold kadd; simpl. ring.
Qed.

Lemma Forall2_map_r : forall {A B D} (P : A -> D -> Prop) (f : B -> D) l l', Forall2 (fun a b => P a (f b)) l l' -> Forall2 P l (map f l').
Proof. intros A B D P f l l' F; induction F; simpl; constructor; auto. Qed.
Lemma expand_single : forall n q K, is_matrix 1 K -> q < n ->
    exists E, expand_operator K [q] (seq 0 n) = Ok E /\ is_matrix n E /\ keq n (entry E) (ctrl_kernel (entry K) [] [q]).
Proof.
  intros n q K HK Hq. destruct (expand_operator_spec 1 K [q] (seq 0 n) HK eq_refl) as (E & EE & ME & KE).
  - repeat constructor; simpl; tauto.
  - apply seq_NoDup.
  - intros x [<-|[]]; apply in_seq; lia.
  - rewrite seq_length in ME, KE. exists E; split; [exact EE|split; [exact ME|]].
    change (sorted [q]) with [q] in KE. rewrite (positions_full n) in KE; [exact KE| |].
    + apply is_perm_seq.
    + intros x [<-|[]]; exact Hq.
Qed.

Lemma apply_noise_dm : forall n q i ks a, kraus i = Ok ks -> q < n -> is_density n a ->
    exists r, apply_noise (SDM a) [q] (seq 0 n) i = Ok (SDM r) /\ is_density n r /\
              keq n (rho_entry r) (kraus_sum n q ks (rho_entry a)).
Proof.
  intros n q i ks a EK Hq Da. destruct (kraus_ok_valid i ks EK) as [T V].
  destruct (c26_valid i T V) as (ks' & E' & NE & FM). rewrite EK in E'; injection E' as <-.
  unfold apply_noise; rewrite EK; cbn [bind].
  assert (EX : exists Es, mapM (fun k => expand_operator k [q] (seq 0 n)) ks = Ok Es /\
             Forall2 (fun E K => is_matrix n E /\ keq n (entry E) (ctrl_kernel (entry K) [] [q])) Es ks).
  { clear EK NE. induction FM as [|K ks MK F IH]; [exists []; split; [reflexivity|constructor]|].
    destruct (expand_single n q K MK Hq) as (E & EE & ME & KE). destruct IH as (Es & EEs & FE).
    exists (E :: Es); split; [cbn [mapM]; rewrite EE; cbn [bind]; rewrite EEs; reflexivity|constructor; auto]. }
  destruct EX as (Es & EEs & FE). rewrite EEs; cbn [bind]. unfold apply_kraus_sum.
  assert (EV : exists es, mapM (fun k => apply_kraus_operator k a (seq 0 n)) Es = Ok es /\
             Forall2 (fun e K => is_density n e /\ keq n (rho_entry e) (sandwiched n (ctrl_kernel (entry K) [] [q]) (rho_entry a))) es ks).
  { clear EEs NE EK FM. induction FE as [|E K Es ks [ME KE] F IH]; [exists []; split; [reflexivity|constructor]|].
    destruct (apply_kraus_operator_full n E a ME Da) as (e & Ee & De & Ke). destruct IH as (es & Ees & Fe).
    exists (e :: es); split; [cbn [mapM]; rewrite Ee; cbn [bind]; rewrite Ees; reflexivity|constructor; auto].
    split; [exact De|]. rewrite Ke. apply sandwiched_ext; [exact KE|apply keq_refl]. }
  destruct EV as (es & Ees & Fe). rewrite Ees; cbn [bind].
  destruct Fe as [|e K es ks [De Ke] Fe]; [congruence|].
  destruct (foldM_add_density n es (map (fun K => sandwiched n (ctrl_kernel (entry K) [] [q]) (rho_entry a)) ks) e _
              (Forall2_map_r (fun e K => is_density n e /\ keq n (rho_entry e) K) _ _ _ Fe) De Ke) as (r & Er & Dr & Kr).
  rewrite Er; cbn [bind]. exists r; split; [reflexivity|split; [exact Dr|exact Kr]].
Qed.

Lemma noise_loop : forall n q l r r', through n q l r r' -> q < n -> forall a, is_density n a -> keq n (rho_entry a) r ->
    exists b, foldM (fun s i => apply_noise s [q] (seq 0 n) i) l (SDM a) = Ok (SDM b) /\ is_density n b /\ keq n (rho_entry b) r'.
Proof.
  intros n q l r r' H Hq; induction H as [rho|i ks l rho rho' EK HT IH]; intros a Da Ka.
  - exists a; split; [reflexivity|split; assumption].
  - destruct (apply_noise_dm n q i ks a EK Hq Da) as (b & Eb & Db & Kb). cbn [foldM]; rewrite Eb; cbn [bind].
    apply IH; [exact Db|]. rewrite Kb; apply kraus_sum_ext; exact Ka.
Qed.

Definition noisy_step (w : world) (s : state) (pn : placed * option (list noise_inst)) : res state :=
  let '(o, t, c, n) := pn in apply_operator_with_noise w s o t c n.

Lemma density_num : forall n a, is_density n a -> num_qubits (SDM a) = Ok n.
Proof.
  intros n a [S _]; unfold num_qubits, num_qubits_dm, ndim; rewrite S, repeat_length, half_2m; reflexivity.
Qed.

Lemma noisy_gate_step : forall w n vals g M cs q l r r1, set_order (set_iter w) ->
    gate_on n vals g M cs [q] -> dense_gate g -> noise g = Some l ->
    through n q l (sandwiched n (gate_op M cs [q]) r) r1 ->
    exists o, operator_of w UNITARY g vals = Ok o /\
      forall a, is_density n a -> keq n (rho_entry a) r ->
        exists b, noisy_step w (SDM a) (o, target g, control g, noise g) = Ok (SDM b) /\ is_density n b /\ keq n (rho_entry b) r1.
Proof.
  intros w n vals g M cs q l r r1 SO HG HD HN HT.
  destruct (opk_operator _ _ _ _ _ _ (gate_on_opk w _ _ _ _ _ _ HG HD)) as (o & Eo & Po).
  exists o; split; [exact Eo|]. intros a Da Ka.
  destruct (step_dm w n o _ _ _ a SO Po Da) as (b & Eb & Db & Kb).
  unfold noisy_step, apply_operator_with_noise; rewrite Eb; cbn [bind]. rewrite HN, (density_num n b Db); cbn [bind].
  rewrite (go_target _ _ _ _ _ _ HG).
  assert (Hq : q < n) by (apply (valid_lt n [q]); [apply (valid_app_r n cs); exact (go_qubits _ _ _ _ _ _ HG)|simpl; auto]).
  assert (K1 : keq n (rho_entry b) (sandwiched n (gate_op M cs [q]) r)).
  { rewrite Kb. apply sandwiched_ext; [apply keq_refl|exact Ka]. }
  exact (noise_loop n q l _ _ HT Hq b Db K1).
Qed.
Lemma plain_gate_step : forall w n vals g M cs ts r, set_order (set_iter w) ->
    gate_on n vals g M cs ts -> dense_gate g -> noise g = None ->
    exists o, operator_of w UNITARY g vals = Ok o /\
      forall a, is_density n a -> keq n (rho_entry a) r ->
        exists b, noisy_step w (SDM a) (o, target g, control g, noise g) = Ok (SDM b) /\ is_density n b /\
                  keq n (rho_entry b) (sandwiched n (gate_op M cs ts) r).
Proof.
  intros w n vals g M cs ts r SO HG HD HN.
  destruct (opk_operator _ _ _ _ _ _ (gate_on_opk w _ _ _ _ _ _ HG HD)) as (o & Eo & Po).
  exists o; split; [exact Eo|]. intros a Da Ka.
  destruct (step_dm w n o _ _ _ a SO Po Da) as (b & Eb & Db & Kb).
  unfold noisy_step, apply_operator_with_noise; rewrite Eb; cbn [bind]. rewrite HN.
  exists b; split; [reflexivity|split; [exact Db|]]. rewrite Kb. apply sandwiched_ext; [apply keq_refl|exact Ka].
Qed.

Lemma noisy_steps : forall w n vals gs r r', set_order (set_iter w) -> noisy_run n vals gs r r' -> Forall dense_gate gs ->
    exists ops, mapM (fun g => operator_of w UNITARY g vals) gs = Ok ops /\
      forall a, is_density n a -> keq n (rho_entry a) r ->
        exists b, foldM (noisy_step w)
          (combine (map (fun og => (fst og, target (snd og), control (snd og))) (combine ops gs)) (map noise gs)) (SDM a)
            = Ok (SDM b) /\ is_density n b /\ keq n (rho_entry b) r'.
Proof.
  intros w n vals gs r r' SO H; induction H as [rho|g gs M cs ts rho rho' HG HN HR IH|g gs M cs q l rho rho1 rho' HG HN HT HR IH]; intro HD.
  - exists []; split; [reflexivity|]. intros a Da Ka; exists a; split; [reflexivity|split; assumption].
  - inversion HD as [|? ? HD1 HD2]; subst. destruct (plain_gate_step w n vals g M cs ts rho SO HG HD1 HN) as (o & Eo & So).
    destruct (IH HD2) as (ops & Eops & Sops). exists (o :: ops); split; [cbn [mapM]; rewrite Eo; cbn [bind]; rewrite Eops; reflexivity|].
    intros a Da Ka. destruct (So a Da Ka) as (b & Eb & Db & Kb). cbn [combine map foldM fst snd]. rewrite Eb; cbn [bind]. apply Sops; assumption.
  - inversion HD as [|? ? HD1 HD2]; subst. destruct (noisy_gate_step w n vals g M cs q l rho rho1 SO HG HD1 HN HT) as (o & Eo & So).
    destruct (IH HD2) as (ops & Eops & Sops). exists (o :: ops); split; [cbn [mapM]; rewrite Eo; cbn [bind]; rewrite Eops; reflexivity|].
    intros a Da Ka. destruct (So a Da Ka) as (b & Eb & Db & Kb). cbn [combine map foldM fst snd]. rewrite Eb; cbn [bind]. apply Sops; assumption.
Qed.

Lemma noisy_run_plain : forall n vals gs r r', noisy_run n vals gs r r' -> Forall noiseless gs ->
    exists U, circuit_on n vals gs U /\ keq n r' (conjugate n U r).
Proof.
  intros n vals gs r r' H; induction H as [rho|g gs M cs ts rho rho' HG HN HR IH|g gs M cs q l rho rho1 rho' HG HN HT HR IH]; intro F.
  - exists kid; split; [constructor|apply keq_sym, conjugate_id].
  - inversion F; subst. destruct IH as (U & HC & E); [assumption|]. exists (kmul n U (gate_op M cs ts)); split; [constructor; assumption|].
    rewrite E. apply keq_sym, conjugate_mul.
  - inversion F as [|? ? F1]; subst. unfold noiseless in F1; congruence.
Qed.

(** ** C28 *)
Lemma c28_circuit : forall w n vals gs rho rho' mg,
    set_order (set_iter w) -> gs <> [] -> Forall dense_gate gs -> is_density n rho ->
    noisy_run n vals gs (rho_entry rho) rho' ->
    exists out, apply_gates w (SDM rho) (GMany gs) vals UNITARY false mg = Ok (SDM out) /\ is_density n out /\
                keq n (rho_entry out) rho'.
Proof.
  intros w n vals gs rho rho' mg SO NE HD Dr HR.
  destruct (no_noise (map noise gs)) eqn:NN.
  - apply no_noise_spec in NN. destruct (noisy_run_plain _ _ _ _ _ HR NN) as (U & HC & E).
    destruct (apply_gates_dm w n vals UNITARY mg gs U rho SO NE NN (circuit_on_gseq w _ _ _ _ HC HD) Dr) as (r & Er & D & K).
    exists r; split; [exact Er|split; [exact D|]]. rewrite K; symmetry; exact E.
  - destruct (noisy_steps w n vals gs _ _ SO HR HD) as (ops & Eops & Sops).
    unfold apply_gates, prepare_sequence_reduce; cbv zeta. rewrite Eops; cbn [bind].
    destruct gs as [|g gs]; [congruence|]. rewrite NN; cbn [andb bind fst snd].
    destruct (Sops rho Dr (keq_refl _ _)) as (b & Eb & Db & Kb). exists b; split; [exact Eb|split; assumption].
Qed.
Lemma pure_entry_run : forall n psi, is_state n psi ->
    exists rho, density_mat psi = Ok rho /\ is_density n rho /\ keq n (rho_entry rho) (fun x y => Cmul (amp psi x) (Cconj (amp psi y))).
Proof. intros n psi HS; apply density_mat_spec; exact HS. Qed.
Lemma sandwich_run_ext : forall n vals gs r r', noisy_run n vals gs r r' -> forall s, keq n s r ->
    exists s', noisy_run n vals gs s s' /\ keq n s' r'.
Proof.
  intros n vals gs r r' H; induction H as [rho|g gs M cs ts rho rho' HG HN HR IH|g gs M cs q l rho rho1 rho' HG HN HT HR IH]; intros s E.
  - exists s; split; [constructor|exact E].
  - destruct (IH (sandwiched n (gate_op M cs ts) s)) as (s' & R & E'); [apply sandwiched_ext; [apply keq_refl|exact E]|].
    exists s'; split; [eapply nrun_plain; eauto|exact E'].
  - destruct (through_ext _ _ _ _ _ HT (sandwiched n (gate_op M cs [q]) s)) as (s1 & T & E1); [apply sandwiched_ext; [apply keq_refl|exact E]|].
    destruct (IH s1 E1) as (s' & R & E'). exists s'; split; [eapply nrun_noise; eauto|exact E'].
Qed.
Lemma c28_circuit_pure : forall w n vals gs psi rho' mg,
    set_order (set_iter w) -> gs <> [] -> Forall dense_gate gs -> (exists g, In g gs /\ noise g <> None) -> is_state n psi ->
    noisy_run n vals gs (fun x y => Cmul (amp psi x) (Cconj (amp psi y))) rho' ->
    exists out, apply_gates w (SDense psi) (GMany gs) vals UNITARY false mg = Ok (SDM out) /\ is_density n out /\
                keq n (rho_entry out) rho'.
Proof.
  intros w n vals gs psi rho' mg SO NE HD (gn & IN & NO) HS HR.
  destruct (density_mat_spec n psi HS) as (rho & Er & Dr & Kr).
  destruct (noisy_steps w n vals gs _ _ SO HR HD) as (ops & Eops & Sops).
  assert (NN : no_noise (map noise gs) = false).
  { destruct (no_noise (map noise gs)) eqn:NN; [|reflexivity]. apply no_noise_spec in NN. rewrite Forall_forall in NN.
    exfalso; apply NO, NN; exact IN. }
  unfold apply_gates, prepare_sequence_reduce; cbv zeta. rewrite Eops; cbn [bind].
  destruct gs as [|g gs]; [congruence|]. rewrite NN; cbn [andb bind fst snd]. rewrite NN; cbn [negb]. rewrite Er; cbn [bind].
  destruct (Sops rho Dr Kr) as (b & Eb & Db & Kb). exists b; split; [exact Eb|split; assumption].
Qed.
Lemma c28_gate : forall w n vals g M cs q l rho rho' gr mg,
    set_order (set_iter w) -> gate_on n vals g M cs [q] -> dense_gate g -> noise g = Some l -> is_density n rho ->
    through n q l (sandwiched n (gate_op M cs [q]) (rho_entry rho)) rho' ->
    exists out, apply_gates w (SDM rho) (GOne g) vals UNITARY gr mg = Ok (SDM out) /\ is_density n out /\
                keq n (rho_entry out) rho'.
Proof.
  intros w n vals g M cs q l rho rho' gr mg SO HG HD HN Dr HT.
  destruct (noisy_gate_step w n vals g M cs q l _ _ SO HG HD HN HT) as (o & Eo & So).
  destruct (So rho Dr (keq_refl _ _)) as (b & Eb & Db & Kb).
  exists b; split; [|split; assumption]. unfold apply_gates, prepare_sequence_reduce; rewrite Eo; cbn [bind fst snd combine foldM].
  fold (noisy_step w (SDM rho) (o, target g, control g, noise g)). rewrite Eb; reflexivity.
Qed.
Lemma c28_gate_pure : forall w n vals g M cs q l psi rho' gr mg,
    set_order (set_iter w) -> gate_on n vals g M cs [q] -> dense_gate g -> noise g = Some l -> is_state n psi ->
    through n q l (sandwiched n (gate_op M cs [q]) (fun x y => Cmul (amp psi x) (Cconj (amp psi y)))) rho' ->
    exists out, apply_gates w (SDense psi) (GOne g) vals UNITARY gr mg = Ok (SDM out) /\ is_density n out /\
                keq n (rho_entry out) rho'.
Proof.
  intros w n vals g M cs q l psi rho' gr mg SO HG HD HN HS HT.
  destruct (density_mat_spec n psi HS) as (rho & Er & Dr & Kr).
  destruct (noisy_gate_step w n vals g M cs q l _ _ SO HG HD HN HT) as (o & Eo & So).
  destruct (So rho Dr Kr) as (b & Eb & Db & Kb).
  exists b; split; [|split; assumption]. unfold apply_gates, prepare_sequence_reduce; rewrite Eo; cbn [bind fst snd combine foldM].
  rewrite HN at 1; cbn [no_noise forallb andb negb]. rewrite Er; cbn [bind].
  fold (noisy_step w (SDM rho) (o, target g, control g, noise g)). rewrite Eb; reflexivity.
Qed.

(** ** C29 *)
Lemma through_exists : forall n q l, Forall (fun i => well_typed i /\ valid_parameter i) l -> forall r, exists r', through n q l r r'.
Proof.
  intros n q l F; induction F as [|i l [T V] F IH]; intro r; [exists r; constructor|].
  destruct (c26_valid i T V) as (ks & E & _). destruct (IH (kraus_sum n q ks r)) as (r' & H). exists r'; econstructor; eauto.
Qed.
Lemma noisy_run_exists : forall n vals gs, Forall (usable n vals) gs -> Forall noise_ok gs -> forall r, exists r', noisy_run n vals gs r r'.
Proof.
  intros n vals gs F; induction F as [|g gs (M & cs & ts & HG) F IH]; intros FN r; [exists r; constructor|].
  inversion FN as [|? ? N1 N2]; subst. unfold noise_ok in N1. destruct (noise g) as [l|] eqn:EN.
  - destruct N1 as [L FL]. rewrite (go_target _ _ _ _ _ _ HG) in L. destruct ts as [|q [|? ?]]; try discriminate.
    destruct (through_exists n q l FL (sandwiched n (gate_op M cs [q]) r)) as (r1 & T).
    destruct (IH N2 r1) as (r' & R). exists r'; eapply nrun_noise; eauto.
  - destruct (IH N2 (sandwiched n (gate_op M cs ts) r)) as (r' & R). exists r'; eapply nrun_plain; eauto.
Qed.

Lemma ksum_map_map : forall {A} n (f : A -> op) (F : op -> op) l,
    (forall A B, keq n (F (kadd A B)) (kadd (F A) (F B))) -> keq n (F (fun _ _ => C0)) (fun _ _ => C0) ->
    keq n (F (ksum (map f l))) (ksum (map (fun x => F (f x)) l)).
Proof.
  intros A n f F l HA H0; induction l as [|x l IH]; simpl; [exact H0|].
  intros a b Ha Hb. change (fun x0 y => Cadd (f x x0 y) (ksum (map f l) x0 y)) with (kadd (f x) (ksum (map f l))). rewrite (HA (f x) (ksum (map f l)) a b Ha Hb). unfold kadd. rewrite (IH a b Ha Hb). reflexivity.
Qed.
Lemma ctrl_kernel_add : forall n A B ts, keq n (ctrl_kernel (kadd A B) [] ts) (kadd (ctrl_kernel A [] ts) (ctrl_kernel B [] ts)).
Proof.
  intros n A B ts x y Hx Hy; unfold ctrl_kernel, kadd; cbn [bits_at map all_ones forallb]. rewrite <- csum_add. apply csum_ext; intros; ring.
Qed.
Lemma ctrl_kernel_zero : forall n ts, keq n (ctrl_kernel (fun _ _ => C0) [] ts) (fun _ _ => C0).
Proof.
  intros n ts x y Hx Hy; unfold ctrl_kernel; cbn [bits_at map all_ones forallb]. apply csum_zero; intros; ring.
Qed.
Lemma ktrace_add : forall n A B, ktrace n (kadd A B) = Cadd (ktrace n A) (ktrace n B).
Proof. intros; unfold ktrace, kadd; apply csum_add. Qed.
Lemma ktrace_ksum : forall {A} n (f : A -> op) l, ktrace n (ksum (map f l)) = csum l (fun x => ktrace n (f x)).
Proof.
  intros A n f l; induction l as [|x l IH]; simpl.
  - unfold ktrace; apply csum_zero; auto.
  - rewrite <- IH. change (fun a b => Cadd (f x a b) (ksum (map f l) a b)) with (kadd (f x) (ksum (map f l))). apply ktrace_add.
Qed.
Lemma kraus_complete : forall n q i ks, kraus i = Ok ks -> q < n ->
    keq n (ksum (map (fun K => kmul n (kadj (ctrl_kernel (entry K) [] [q])) (ctrl_kernel (entry K) [] [q])) ks)) kid.
Proof.
  intros n q i ks EK Hq. destruct (c25_trace_preserving i ks EK) as [FM HK].
  assert (V : valid_qubits n ([] ++ [q])) by (split; [repeat constructor; simpl; tauto|repeat constructor; exact Hq]).
  rewrite <- (ctrl_kernel_id n [] [q] V).
  rewrite <- (ctrl_kernel_ext n _ _ [] [q] HK).
  rewrite (ksum_map_map n (fun K => kmul 1 (kadj (entry K)) (entry K)) (fun A => ctrl_kernel A [] [q]) ks).
  - apply ksum_keq. clear - V. induction ks; simpl; constructor; auto.
    rewrite (ctrl_kernel_adj n _ [] [q] V), (ctrl_kernel_mul n _ _ [] [q] V). reflexivity.
  - intros; apply ctrl_kernel_add.
  - apply ctrl_kernel_zero.
Qed.
Lemma kraus_sum_trace : forall n q i ks r, kraus i = Ok ks -> q < n -> ktrace n (kraus_sum n q ks r) = ktrace n r.
Proof.
  intros n q i ks r EK Hq. assert (HC := kraus_complete n q i ks EK Hq). unfold kraus_sum. rewrite ktrace_ksum.
  transitivity (csum ks (fun K => ktrace n (kmul n (kmul n (kadj (ctrl_kernel (entry K) [] [q])) (ctrl_kernel (entry K) [] [q])) r))).
  - apply csum_ext; intros K _; unfold sandwiched. rewrite ktrace_cyclic. apply ktrace_ext. symmetry; apply kmul_assoc.
  - rewrite <- (ktrace_ksum n (fun K => kmul n (kmul n (kadj (ctrl_kernel (entry K) [] [q])) (ctrl_kernel (entry K) [] [q])) r)).
    apply ktrace_ext.
    rewrite <- (ksum_map_map n (fun K => kmul n (kadj (ctrl_kernel (entry K) [] [q])) (ctrl_kernel (entry K) [] [q])) (fun A => kmul n A r)).
    + rewrite HC. apply kmul_id_l.
    + intros; apply kmul_kadd_l.
    + intros x y Hx Hy; unfold kmul; apply csum_zero; intros; ring.
Qed.
Lemma ksum_hermitian : forall {A} n (f : A -> op) l, (forall x, hermitian n (f x)) -> hermitian n (ksum (map f l)).
Proof.
  intros A n f l H; induction l as [|a l IH]; intros x y Hx Hy; simpl; [unfold kadj; apply C_ext; simpl; ring|].
  unfold kadj. rewrite Cconj_add. rewrite <- (H a x y Hx Hy), <- (IH x y Hx Hy). reflexivity.
Qed.
Lemma qform_add : forall n A B f, qform n (kadd A B) f = Cadd (qform n A f) (qform n B f).
Proof.
  intros n A B f; unfold qform, inner_product, apply_kernel, kadd. rewrite <- csum_add. apply csum_ext; intros x Hx.
  rewrite (csum_ext _ _ (fun y => Cadd (Cmul (A x y) (f y)) (Cmul (B x y) (f y)))) by (intros; ring). rewrite csum_add. ring.
Qed.
Lemma ksum_positive : forall {A} n (f : A -> op) l, (forall x, positive n (f x)) -> positive n (ksum (map f l)).
Proof.
  intros A n f l H; induction l as [|a l IH]; intro v; simpl.
  - unfold qform, inner_product, apply_kernel. rewrite csum_zero; [simpl; lra|]. intros x Hx. rewrite csum_zero; [ring|intros; ring].
  - change (fun x y => Cadd (f a x y) (ksum (map f l) x y)) with (kadd (f a) (ksum (map f l))). rewrite qform_add.
    destruct (H a v) as [P1 P2], (IH v) as [P3 P4]. simpl; split; lra.
Qed.

Definition preserved (n : nat) (r r' : op) : Prop :=
  ktrace n r' = ktrace n r /\ (hermitian n r -> hermitian n r') /\ (positive n r -> positive n r').
Lemma preserved_trans : forall n a b c, preserved n a b -> preserved n b c -> preserved n a c.
Proof. unfold preserved; intros n a b c (T1 & H1 & P1) (T2 & H2 & P2). split; [congruence|split; auto]. Qed.
Lemma preserved_unitary : forall n U r, unitary n U -> preserved n r (sandwiched n U r).
Proof.
  intros n U r HU; split; [apply ktrace_conjugation; exact HU|split; intro H; [apply hermitian_conjugation|apply positive_conjugation]; exact H].
Qed.
Lemma preserved_through : forall n q l r r', q < n -> through n q l r r' -> preserved n r r'.
Proof.
  intros n q l r r' Hq H; induction H as [rho|i ks l rho rho' EK HT IH]; [unfold preserved; auto|].
  eapply preserved_trans; [|exact IH]. split; [apply (kraus_sum_trace n q i); assumption|split; intro H].
  - apply ksum_hermitian; intro K; apply hermitian_conjugation; exact H.
  - apply ksum_positive; intro K; apply positive_conjugation; exact H.
Qed.
Lemma preserved_run : forall n vals gs r r', noisy_run n vals gs r r' -> preserved n r r'.
Proof.
  intros n vals gs r r' H; induction H as [rho|g gs M cs ts rho rho' HG HN HR IH|g gs M cs q l rho rho1 rho' HG HN HT HR IH].
  - unfold preserved; auto.
  - eapply preserved_trans; [apply preserved_unitary; eapply gate_op_unitary; exact HG|exact IH].
  - eapply preserved_trans; [apply preserved_unitary; eapply gate_op_unitary; exact HG|].
    eapply preserved_trans; [eapply preserved_through; [|exact HT]|exact IH].
    apply (valid_lt n [q]); [apply (valid_app_r n cs); exact (go_qubits _ _ _ _ _ _ HG)|simpl; auto].
Qed.
Lemma group_any : forall w s gs vals ot gr mg, exists gs', Permutation gs' gs /\
    apply_gates w s (GMany gs) vals ot gr mg = apply_gates w s (GMany gs') vals ot false mg.
Proof.
  intros w s gs vals ot [|] mg; [|exists gs; split; [apply Permutation_refl|reflexivity]].
  exists (group_by_index gs); split; [apply group_by_index_perm|apply apply_gates_group].
Qed.
Lemma perm_nonempty : forall {A} (l l' : list A), Permutation l l' -> l' <> [] -> l <> [].
Proof. intros A l l' P NE ->. apply Permutation_nil in P; congruence. Qed.

Lemma c29_density : forall w n vals gs gr mg rho,
    set_order (set_iter w) ->
    gs <> [] -> Forall (usable n vals) gs -> Forall dense_gate gs -> Forall noise_ok gs -> is_density n rho ->
    exists rho', apply_gates w (SDM rho) (GMany gs) vals UNITARY gr mg = Ok (SDM rho') /\ is_density n rho' /\
      ktrace n (rho_entry rho') = ktrace n (rho_entry rho) /\
      (hermitian n (rho_entry rho) -> hermitian n (rho_entry rho')) /\
      (positive n (rho_entry rho) -> positive n (rho_entry rho')).
Proof.
  intros w n vals gs gr mg rho SO NE FU FD FN Dr.
  destruct (group_any w (SDM rho) gs vals UNITARY gr mg) as (gs' & P & ->).
  assert (P' := Permutation_sym P).
  destruct (noisy_run_exists n vals gs' (Forall_perm _ _ _ P' FU) (Forall_perm _ _ _ P' FN) (rho_entry rho)) as (r' & R).
  destruct (c28_circuit w n vals gs' rho r' mg SO (perm_nonempty _ _ P NE) (Forall_perm _ _ _ P' FD) Dr R) as (out & E & D & K).
  destruct (preserved_run _ _ _ _ _ R) as (T & H & Q).
  exists out; split; [exact E|split; [exact D|]]. split; [rewrite K; exact T|].
  split; intro X; [eapply hermitian_ext; [apply keq_sym; exact K|auto]|eapply positive_ext; [apply keq_sym; exact K|auto]].
Qed.
Lemma pure_hermitian : forall n f, hermitian n (fun x y => Cmul (f x) (Cconj (f y))).
Proof. intros n f x y Hx Hy; unfold kadj. rewrite Cconj_mul, Cconj_invol. ring. Qed.
Lemma pure_positive : forall n f, positive n (fun x y => Cmul (f x) (Cconj (f y))).
Proof.
  intros n f v. assert (E : qform n (fun x y => Cmul (f x) (Cconj (f y))) v = RtoC (Cnorm2 (inner_product n f v))).
  { unfold qform, apply_kernel, inner_product. set (z := csum (bitstrings n) (fun x => Cmul (Cconj (f x)) (v x))).
    rewrite (csum_ext _ _ (fun x => Cmul (Cmul (Cconj (v x)) (f x)) z)).
    - rewrite csum_scale_r. replace (csum (bitstrings n) (fun x => Cmul (Cconj (v x)) (f x))) with (Cconj z).
      + apply Cmul_conj.
      + unfold z; rewrite csum_conj. apply csum_ext; intros x _; rewrite Cconj_mul, Cconj_invol; ring.
    - intros x _. rewrite (csum_ext _ _ (fun y => Cmul (f x) (Cmul (Cconj (f y)) (v y)))) by (intros; ring).
      rewrite csum_scale_l. unfold z; ring. }
  rewrite E; simpl; split; [apply Cnorm2_nonneg|reflexivity].
Qed.
