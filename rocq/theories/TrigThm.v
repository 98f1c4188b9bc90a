(** * Expectations are trigonometric polynomials of every parameter *)
From Coq Require Import String List Arith Bool Reals Lia Lra ZArith Permutation Sorted.
From Verif Require Import Cplx Py PyFacts Ndarray OperatorUtils Sparse Matrices Noise Gates Apply Composite Conversion Shots Gpsr Api
  Spec SpecFacts Deriv GateSpec PropSpec NoiseSpec SampleSpec ExpectSpec GpsrSpec GateFacts CircuitFacts AlgebraFacts ApplyThm GateThm TensorFacts TensorThm
  KrausThm NoiseThm NoiseThm2 SeqThm SampleThm ShotsSpec ShotsThm ExpectThm ExpectThm2 GpsrFacts GpsrThm GpsrThm2 StructSpec PhysSpec PhysThm TrigSpec.
Import ListNotations.
Local Open Scope nat_scope.

(** ** Laurent polynomials in exp(i s) with operators as coefficients *)
Definition lsum (l : list (Z * op)) (s : R) : op := ksum (map (fun e => kscale (Cexpi (IZR (fst e) * s)) (snd e)) l).
Lemma lsum_app : forall n l m s, keq n (lsum (l ++ m) s) (kadd (lsum l s) (lsum m s)).
Proof.
  intros n l m s x y Hx Hy. unfold lsum, kadd. rewrite map_app. induction l as [|e l IH]; cbn [map app ksum]; [ring|]. rewrite IH. ring.
Qed.
Lemma lsum_linear : forall n L l s, linear n L -> keq n (L (lsum l s)) (lsum (map (fun e => (fst e, L (snd e))) l) s).
Proof.
  intros n L l s (L1 & L2 & L3 & _). induction l as [|e l IH].
  - unfold lsum; cbn [map ksum]. assert (Z : keq n (fun _ _ => C0) (kscale C0 (fun _ _ => C0))) by (intros x y _ _; unfold kscale; ring).
    eapply keq_trans; [apply L1; exact Z|]. eapply keq_trans; [apply L3|]. intros x y _ _. unfold kscale. ring.
  - change (lsum (e :: l) s) with (kadd (kscale (Cexpi (IZR (fst e) * s)) (snd e)) (lsum l s)). eapply keq_trans; [apply L2|].
    intros x y Hx Hy. unfold kadd. rewrite (L3 _ _ x y Hx Hy), (IH x y Hx Hy). reflexivity.
Qed.
Lemma lsum_scale : forall n k l s, keq n (kscale (Cexpi (IZR k * s)) (lsum l s)) (lsum (map (fun e => ((k + fst e)%Z, snd e)) l) s).
Proof.
  intros n k l s x y Hx Hy. unfold lsum, kscale. induction l as [|e l IH]; cbn [map ksum fst snd]; [ring|]. rewrite <- IH, plus_IZR, Rmult_plus_distr_r, Cexpi_add. ring.
Qed.
Definition lprod (n : nat) (l m : list (Z * op)) : list (Z * op) := flat_map (fun e => map (fun f => ((fst e + fst f)%Z, kmul n (snd e) (snd f))) m) l.
Lemma linear_lmul : forall n A, linear n (kmul n A).
Proof.
  intros n A. split; [intros; apply kmul_ext; [apply keq_refl|assumption]|]. split; [intros; apply kmul_kadd_r|]. split; [intros; apply kmul_kscale_r|]. intros; apply kderiv_lmul; assumption.
Qed.
Lemma linear_rmul : forall n A, linear n (fun B => kmul n B A).
Proof.
  intros n A. split; [intros; apply kmul_ext; [assumption|apply keq_refl]|]. split; [intros; apply kmul_kadd_l|]. split; [intros; apply kmul_kscale_l|]. intros; apply kderiv_rmul; assumption.
Qed.
Lemma lsum_mul : forall n l m s, keq n (kmul n (lsum l s) (lsum m s)) (lsum (lprod n l m) s).
Proof.
  intros n l m s. induction l as [|e l IH].
  - unfold lsum; cbn [map ksum lprod flat_map]. apply kmul_zero_l.
  - change (lsum (e :: l) s) with (kadd (kscale (Cexpi (IZR (fst e) * s)) (snd e)) (lsum l s)). cbn [lprod flat_map].
    eapply keq_trans; [apply kmul_kadd_l|]. eapply keq_trans; [|apply keq_sym, lsum_app]. apply kadd_ext; [|exact IH].
    eapply keq_trans; [apply kmul_kscale_l|]. intros x y Hx Hy. unfold kscale. rewrite (lsum_linear n (kmul n (snd e)) m s (linear_lmul n (snd e)) x y Hx Hy).
    transitivity (kscale (Cexpi (IZR (fst e) * s)) (lsum (map (fun f => (fst f, kmul n (snd e) (snd f))) m) s) x y); [reflexivity|].
    rewrite (lsum_scale n (fst e) _ s x y Hx Hy). rewrite map_map. reflexivity.
Qed.
Lemma lsum_adj : forall n l s, keq n (kadj (lsum l s)) (lsum (map (fun e => ((- fst e)%Z, kadj (snd e))) l) s).
Proof.
  intros n l s x y Hx Hy. unfold lsum, kadj, kscale. induction l as [|e l IH]; cbn [map ksum fst snd]; [apply C_ext; simpl; ring|].
  rewrite <- IH. rewrite Cconj_add, Cconj_mul, Cexpi_conj, opp_IZR, Ropp_mult_distr_l. reflexivity.
Qed.
(** which frequencies may occur *)
Definition okf (b : bool) (m : nat) (k : Z) : Prop := (Z.abs k <= 2 * Z.of_nat m)%Z /\ (b = true -> exists h, k = (2 * h)%Z).
Definition laurent (n : nat) (b : bool) (m : nat) (F : R -> op) : Prop :=
  exists l, Forall (fun e => okf b m (fst e)) l /\ forall s, keq n (F s) (lsum l s).
Lemma laurent_const : forall n b m A, laurent n b m (fun _ => A).
Proof.
  intros n b m A. exists [(0%Z, A)]. split; [apply Forall_cons; [split; [cbn [fst]; lia|intro; exists 0%Z; reflexivity]|apply Forall_nil]|].
  intros s x y _ _. unfold lsum, kscale; cbn [map ksum fst snd]. rewrite Rmult_0_l, Cexpi_0. ring.
Qed.
Lemma laurent_linear : forall n b m L F, linear n L -> laurent n b m F -> laurent n b m (fun s => L (F s)).
Proof.
  intros n b m L F LL (l & FL & E). exists (map (fun e => (fst e, L (snd e))) l). split; [rewrite Forall_map; exact FL|].
  intro s. eapply keq_trans; [apply LL, E|]. apply lsum_linear. exact LL.
Qed.
Lemma laurent_ext : forall n b m F G, (forall s, keq n (G s) (F s)) -> laurent n b m F -> laurent n b m G.
Proof. intros n b m F G E (l & FL & H). exists l. split; [exact FL|]. intro s. eapply keq_trans; [apply E|apply H]. Qed.
Lemma laurent_sandwich : forall n b m u U F, (forall e e', In e u -> In e' u -> okf b 1 (fst e - fst e')) -> (forall s, keq n (U s) (lsum u s)) ->
    laurent n b m F -> laurent n b (S m) (fun s => sandwiched n (U s) (F s)).
Proof.
  intros n b m u U F OK EU (l & FL & E). exists (lprod n (lprod n u l) (map (fun e => ((- fst e)%Z, kadj (snd e))) u)). split.
  - apply Forall_forall. intros e I. unfold lprod in I. apply in_flat_map in I as (e1 & I1 & I2). apply in_flat_map in I1 as (eu & Iu & I3). apply in_map_iff in I3 as (el & <- & Il).
    apply in_map_iff in I2 as (e2 & <- & I2). apply in_map_iff in I2 as (eu' & <- & Iu'). cbn [fst snd]. destruct (OK eu eu' Iu Iu') as [O1 O2]. rewrite Forall_forall in FL. destruct (FL el Il) as [O3 O4].
    split; [lia|]. intro Hb. destruct (O2 Hb) as (h & Hh). destruct (O4 Hb) as (h' & Hh'). exists (h + h')%Z. lia.
  - intro s. unfold sandwiched. eapply keq_trans; [|apply lsum_mul]. apply kmul_ext.
    + eapply keq_trans; [|apply lsum_mul]. apply kmul_ext; [apply EU|apply E].
    + eapply keq_trans; [|apply lsum_adj]. apply kadj_ext. apply EU.
Qed.
(** ** the gates *)
Definition only_on (cs : list nat) (A : op) : op := fun x y => if on cs x then A x y else C0.
Definition only_off (cs : list nat) : op := fun x y => if on cs x then C0 else kid x y.
Lemma ctrl_comb : forall n M cs ts za zb A B, keq (length ts) M (kadd (kscale za A) (kscale zb B)) ->
    keq n (ctrl_kernel M cs ts) (kadd (kscale za (only_on cs (ctrl_kernel A [] ts))) (kadd (kscale zb (only_on cs (ctrl_kernel B [] ts))) (only_off cs))).
Proof.
  intros n M cs ts za zb A B E x y Hx Hy. rewrite (ctrl_kernel_ext n _ _ cs ts E x y Hx Hy). rewrite ctrl_split. rewrite (NoiseThm.ctrl_kernel_add n _ _ ts x y Hx Hy). unfold kadd. rewrite !(GpsrFacts.ctrl_kernel_kscale n _ _ ts x y Hx Hy).
  unfold kscale, only_on, only_off. destruct (on cs x); ring.
Qed.
Definition half_plus (P : op) : op := kscale (RtoC (1 / 2)) (kadd kid (kscale (RtoC (-1)) P)).
Definition half_minus (P : op) : op := kscale (RtoC (1 / 2)) (kadd kid P).
Lemma rot_exp : forall name t, keq 1 (rot name t) (kadd (kscale (Cexpi (t / 2)) (half_plus (pauli name))) (kscale (Cexpi (- (t / 2))) (half_minus (pauli name)))).
Proof.
  intros name t. eapply keq_trans; [apply rot_rotk|]. intros x y _ _. unfold rotk, half_plus, half_minus, kadd, kscale, Cexpi. rewrite cos_neg, sin_neg.
  apply C_ext; simpl; field.
Qed.
Lemma phase_exp : forall t, keq 1 (PHASE_matrix t) (kadd (kscale (Cexpi t) (mat2 C0 C0 C0 C1)) (kscale C1 (mat2 C1 C0 C0 C0))).
Proof. intros t x y Hx Hy. unfold PHASE_matrix, kadd, kscale. bits1 Hx; bits1 Hy; cbn [mat2]; ring. Qed.
Lemma gate_laurent : forall n vals g name, usable n vals g -> uses_param name g = true ->
    exists u, (forall t, keq n (gate_op (mat_of (at_value vals name t) g) (ctrl_of (control g)) (target g)) (lsum u (t / 2))) /\
      (forall e e', In e u -> In e' u -> okf false 1 (fst e - fst e')) /\
      (gclass g = KPhase \/ control_qubits (control g) [] -> forall e e', In e u -> In e' u -> okf true 1 (fst e - fst e')).
Proof.
  intros n vals g name U EU. set (cs := ctrl_of (control g)).
  assert (SH : shiftable g). { unfold uses_param, is_parametric in EU. unfold shiftable. destruct U as (M & cs' & ts & HG). destruct (go_matrix _ _ _ _ _ _ HG) as [? ? K|K|? ? ? K|? K]; rewrite K in EU |- *; try discriminate; auto. }
  destruct (plain_target n vals g U SH) as (q & T & Hq). rewrite T.
  assert (AG : forall t, angle_of (at_value vals name t) g = (t + shift g)%R) by (intro t; apply angle_used; exact EU).
  destruct SH as [K|K].
  - assert (EM : forall t, keq n (gate_op (mat_of (at_value vals name t) g) cs [q])
       (lsum ([(1%Z, kscale (Cexpi (shift g / 2)) (only_on cs (ctrl_kernel (half_plus (pauli (generator_name g))) [] [q])));
               ((-1)%Z, kscale (Cexpi (- (shift g / 2))) (only_on cs (ctrl_kernel (half_minus (pauli (generator_name g))) [] [q])))] ++
               (if match cs with [] => true | _ => false end then [] else [(0%Z, only_off cs)])) (t / 2))).
    { intro t. unfold gate_op, mat_of. rewrite K, AG. eapply keq_trans; [apply ctrl_comb; apply rot_exp|].
      eapply keq_trans; [|apply keq_sym, lsum_app]. intros x y Hx Hy. unfold kadd, kscale, lsum; cbn [map ksum fst snd].
      assert (O : only_off cs x y = ksum (map (fun e => kscale (Cexpi (IZR (fst e) * (t / 2))) (snd e)) (if match cs with [] => true | _ => false end then [] else [(0%Z, only_off cs)])) x y).
      { destruct cs as [|c cs']; cbn [map ksum fst snd]; [reflexivity|]. rewrite Rmult_0_l, Cexpi_0. unfold kscale. ring. }
      rewrite <- O. unfold kscale. replace ((t + shift g) / 2)%R with (1 * (t / 2) + shift g / 2)%R by field. rewrite Cexpi_add.
      replace (- (1 * (t / 2) + shift g / 2))%R with (-1 * (t / 2) + - (shift g / 2))%R by field. rewrite Cexpi_add. ring. }
    eexists. split; [exact EM|]. split.
    + intros e e' I I'. assert (R : forall e0, In e0 ([(1%Z, kscale (Cexpi (shift g / 2)) (only_on cs (ctrl_kernel (half_plus (pauli (generator_name g))) [] [q])));
               ((-1)%Z, kscale (Cexpi (- (shift g / 2))) (only_on cs (ctrl_kernel (half_minus (pauli (generator_name g))) [] [q])))] ++
               (if match cs with [] => true | _ => false end then [] else [(0%Z, only_off cs)])) -> (Z.abs (fst e0) <= 1)%Z).
      { intros e0 I0. apply in_app_iff in I0 as [[<-|[<-|[]]]|I0]; try (simpl; lia). destruct cs; [destruct I0|]. destruct I0 as [<-|[]]. simpl; lia. }
      pose proof (R e I). pose proof (R e' I'). split; [lia|discriminate].
    + intros [K'|CQ]; [congruence|]. assert (CN : cs = []) by (apply ctrl_of_spec; exact CQ). rewrite CN. cbn [app].
      intros e e' [<-|[<-|[]]] [<-|[<-|[]]]; cbn [fst]; (split; [cbn [fst]; lia|intros _]); [exists 0%Z|exists 1%Z|exists (-1)%Z|exists 0%Z]; reflexivity.
  - assert (EM : forall t, keq n (gate_op (mat_of (at_value vals name t) g) cs [q])
       (lsum [(2%Z, kscale (Cexpi (shift g)) (only_on cs (ctrl_kernel (mat2 C0 C0 C0 C1) [] [q])));
              (0%Z, kadd (only_on cs (ctrl_kernel (mat2 C1 C0 C0 C0) [] [q])) (only_off cs))] (t / 2))).
    { intro t. unfold gate_op, mat_of. rewrite K, AG. eapply keq_trans; [apply ctrl_comb; apply phase_exp|].
      intros x y Hx Hy. unfold kadd, kscale, lsum; cbn [map ksum fst snd]. unfold kscale. replace (t + shift g)%R with (2 * (t / 2) + shift g)%R by field. rewrite Cexpi_add, Rmult_0_l, Cexpi_0. ring. }
    eexists. split; [exact EM|]. assert (R : forall e e', In e [(2%Z, kscale (Cexpi (shift g)) (only_on cs (ctrl_kernel (mat2 C0 C0 C0 C1) [] [q])));
              (0%Z, kadd (only_on cs (ctrl_kernel (mat2 C1 C0 C0 C0) [] [q])) (only_off cs))] -> In e' [(2%Z, kscale (Cexpi (shift g)) (only_on cs (ctrl_kernel (mat2 C0 C0 C0 C1) [] [q])));
              (0%Z, kadd (only_on cs (ctrl_kernel (mat2 C1 C0 C0 C0) [] [q])) (only_off cs))] -> okf true 1 (fst e - fst e')).
    { intros e e' [<-|[<-|[]]] [<-|[<-|[]]]; cbn [fst]; (split; [cbn [fst]; lia|intros _]); [exists 0%Z|exists 1%Z|exists (-1)%Z|exists 0%Z]; reflexivity. }
    split; [|intros _; exact R]. intros e e' I I'. split; [apply (R e e' I I')|discriminate].
Qed.
Lemma uses_cons : forall g gs name, uses (g :: gs) name = count_occ string_dec (names_of_gate g) name + uses gs name.
Proof. intros g gs name. unfold uses. cbn [flat_map]. apply count_occ_app. Qed.
Lemma evolve_laurent : forall n vals name b gs, Forall (usable n vals) gs -> (b = true -> no_controlled_rotation gs name) ->
    forall m F, laurent n b m (fun s => F (2 * s)%R) -> laurent n b (uses gs name + m) (fun s => evolve n (at_value vals name (2 * s)) gs (F (2 * s)%R)).
Proof.
  intros n vals name b gs FU. induction FU as [|g gs U FU IH]; intros NC m F LF; [exact LF|].
  assert (NC' : b = true -> no_controlled_rotation gs name) by (intros Hb h I; apply (NC Hb); right; exact I).
  rewrite uses_cons. cbn [evolve]. destruct (uses_param name g) eqn:EU.
  - assert (C1' : count_occ string_dec (names_of_gate g) name = 1). { rewrite (uses_in_names n vals g name U EU). simpl. destruct (string_dec name name); congruence. }
    rewrite C1'. replace (1 + uses gs name + m) with (uses gs name + S m) by lia.
    apply (IH NC' (S m) (fun t => step n (at_value vals name t) g (F t))). unfold step. apply (laurent_linear n b (S m) (channels n (target g) (noise g))); [apply linear_channels|].
    destruct (gate_laurent n vals g name U EU) as (u & E & O1 & O2). apply (laurent_sandwich n b m u); [| |exact LF].
    + destruct b; [|exact O1]. apply O2. apply (NC eq_refl g); [left; reflexivity|]. rewrite (uses_in_names n vals g name U EU). left; reflexivity.
    + intro s. eapply keq_trans; [apply E|]. replace (2 * s / 2)%R with s by field. apply keq_refl.
  - assert (C0' : count_occ string_dec (names_of_gate g) name = 0). { apply count_occ_not_In. intro I. apply (uses_names n vals g name U) in I. congruence. }
    rewrite C0'. apply (IH NC' m (fun t => step n (at_value vals name t) g (F t))).
    eapply laurent_ext; [|apply (laurent_linear n b m (step n vals g)); [apply linear_step|exact LF]]. intro s. rewrite (GpsrFacts.step_unused n vals g name _ _ U EU). apply keq_refl.
Qed.
(** ** real functions *)
Lemma rsum_delta : forall (l : list nat) j (g : nat -> R), NoDup l -> rsum l (fun i => if Nat.eqb i j then g i else 0%R) = if in_dec Nat.eq_dec j l then g j else 0%R.
Proof.
  intros l j g N. induction N as [|i l NI N IH]; cbn [rsum]; [destruct (in_dec Nat.eq_dec j []) as [[]|]; reflexivity|]. rewrite IH.
  destruct (Nat.eqb_spec i j) as [->|NE].
  - destruct (in_dec Nat.eq_dec j l) as [I|_]; [contradiction|]. destruct (in_dec Nat.eq_dec j (j :: l)) as [_|X]; [ring|elim X; left; reflexivity].
  - destruct (in_dec Nat.eq_dec j l) as [I|NI']; destruct (in_dec Nat.eq_dec j (i :: l)) as [I2|NI2]; try ring; [elim NI2; right; exact I|destruct I2; [congruence|contradiction]].
Qed.
Lemma trig_term : forall m j u v, j <= m -> trig_poly m (fun t => u * cos (INR j * t) + v * sin (INR j * t))%R.
Proof.
  intros m j u v Hj. exists (fun i => if Nat.eqb i j then u else 0%R), (fun i => if Nat.eqb i j then v else 0%R). intro t.
  transitivity (rsum (seq 0 (S m)) (fun i => if Nat.eqb i j then (u * cos (INR i * t) + v * sin (INR i * t))%R else 0%R)).
  - rewrite rsum_delta by apply seq_NoDup. destruct (in_dec Nat.eq_dec j (seq 0 (S m))) as [_|X]; [reflexivity|elim X; apply in_seq; lia].
  - apply rsum_ext. intros i _. destruct (Nat.eqb i j); ring.
Qed.
Lemma trig_add : forall m f g, trig_poly m f -> trig_poly m g -> trig_poly m (fun t => f t + g t)%R.
Proof.
  intros m f g (a & b & F) (a' & b' & G). exists (fun j => a j + a' j)%R, (fun j => b j + b' j)%R. intro t. rewrite F, G, <- rsum_add. apply rsum_ext. intros; ring.
Qed.
Lemma trig_ext : forall m f g, (forall t, g t = f t) -> trig_poly m f -> trig_poly m g.
Proof. intros m f g E (a & b & F). exists a, b. intro t. rewrite E. apply F. Qed.
Lemma trig_freq : forall m k z, (Z.abs k <= Z.of_nat m)%Z -> trig_poly m (fun s => re (Cmul (Cexpi (IZR k * s)) z)).
Proof.
  intros m k z Hk. destruct (Z_le_dec 0 k) as [P|P].
  - apply (trig_ext m (fun s => re z * cos (INR (Z.abs_nat k) * s) + (- im z) * sin (INR (Z.abs_nat k) * s))%R).
    + intro s. simpl. rewrite INR_IZR_INZ, Zabs2Nat.id_abs, Z.abs_eq by exact P. ring.
    + apply trig_term. lia.
  - apply (trig_ext m (fun s => re z * cos (INR (Z.abs_nat k) * s) + im z * sin (INR (Z.abs_nat k) * s))%R).
    + intro s. simpl. rewrite INR_IZR_INZ, Zabs2Nat.id_abs, Z.abs_neq by lia. replace (IZR k * s)%R with (- (IZR (- k) * s))%R by (rewrite opp_IZR; ring). rewrite cos_neg, sin_neg. ring.
    + apply trig_term. lia.
Qed.
Lemma mean_scale_c : forall n K z A, mean_density n K (kscale z A) = re (Cmul z (ktrace n (kmul n K A))).
Proof.
  intros n K z A. unfold mean_density. rewrite (ktrace_ext n _ _ (kmul_kscale_r n z A K)). unfold ktrace, kscale. rewrite csum_scale_l. reflexivity.
Qed.
Lemma mean_lsum : forall n K l s, mean_density n K (lsum l s) = rsum l (fun e => re (Cmul (Cexpi (IZR (fst e) * s)) (ktrace n (kmul n K (snd e))))).
Proof.
  intros n K l s. unfold lsum. rewrite (mean_density_sum n K (fun e => kscale (Cexpi (IZR (fst e) * s)) (snd e)) l). apply rsum_ext. intros e _. apply mean_scale_c.
Qed.
Lemma trig_rsum : forall {A} m (f : A -> R -> R) l, (forall a, In a l -> trig_poly m (f a)) -> trig_poly m (fun s => rsum l (fun a => f a s)).
Proof.
  intros A m f l H. induction l as [|a l IH]; cbn [rsum].
  - exists (fun _ => 0%R), (fun _ => 0%R). intro t. symmetry. rewrite (rsum_ext _ _ (fun _ => 0%R)) by (intros; ring). induction (seq 0 (S m)) as [|i l' IH']; cbn [rsum]; [reflexivity|rewrite IH'; ring].
  - apply (trig_add m (f a) (fun s => rsum l (fun a => f a s))); [apply H; left; reflexivity|]. apply IH. intros b I. apply H. right; exact I.
Qed.
Lemma laurent_trig : forall n K b m F, laurent n b m F -> trig_poly (2 * m) (fun s => mean_density n K (F s)) /\ (b = true -> trig_poly m (fun t => mean_density n K (F (t / 2)%R))).
Proof.
  intros n K b m F (l & FL & E). rewrite Forall_forall in FL. split.
  - apply (trig_ext _ (fun s => rsum l (fun e => re (Cmul (Cexpi (IZR (fst e) * s)) (ktrace n (kmul n K (snd e))))))).
    + intro s. rewrite <- mean_lsum. apply mean_density_ext; [apply keq_refl|apply E].
    + apply (trig_rsum (2 * m) (fun e s => re (Cmul (Cexpi (IZR (fst e) * s)) (ktrace n (kmul n K (snd e)))))). intros e I. apply trig_freq. destruct (FL e I) as [O _]. lia.
  - intro Hb. apply (trig_ext _ (fun s => rsum l (fun e => re (Cmul (Cexpi (IZR (fst e) * (s / 2))) (ktrace n (kmul n K (snd e))))))).
    + intro s. rewrite <- mean_lsum. apply mean_density_ext; [apply keq_refl|apply E].
    + apply (trig_rsum m (fun e s => re (Cmul (Cexpi (IZR (fst e) * (s / 2))) (ktrace n (kmul n K (snd e)))))). intros e I. destruct (FL e I) as [O O2]. destruct (O2 Hb) as (h & Hh).
      apply (trig_ext _ (fun t => re (Cmul (Cexpi (IZR h * t)) (ktrace n (kmul n K (snd e)))))).
      * intro t. rewrite Hh, mult_IZR. f_equal. f_equal. f_equal. field.
      * apply trig_freq. lia.
Qed.
Lemma flat_at : forall vals name t, In name (map fst vals) -> flat_values vals -> flat_values (at_value vals name t).
Proof.
  intros vals name t I [E|E]; [left|right]; unfold at_value; rewrite lookup_set; (match goal with |- context [String.eqb ?k name] => destruct (String.eqb_spec k name) as [Q|] end; [|exact E]);
    subst name; apply lookup_in in I as (v & Ev); congruence.
Qed.
Lemma runnable_at : forall n vals c gs name t, runnable n vals c gs -> runnable n (at_value vals name t) c gs.
Proof. intros n vals c gs name t (A & B & FU & D & E). split; [exact A|]. split; [exact B|]. split; [|split; assumption]. eapply Forall_impl; [|exact FU]. intros g. apply usable_at. Qed.
Lemma c104_trig : forall w n vals c gs st obs Ks name mode key, set_order (set_iter w) -> flat_values vals -> runnable n vals c gs -> state_of n st -> obs <> [] ->
    In name (map fst vals) -> (forall t, Forall2 (readable w n (at_value vals name t) st gs) obs Ks) -> exact_mode mode ->
    exists fs : list (R -> R), length fs = length obs /\
      (forall t, expectation w st c obs (at_value vals name t) mode 0 key = Ok (map (fun f => f t) fs)) /\
      Forall (fun f => trig_poly (2 * uses gs name) (fun s => f (2 * s)%R)) fs /\
      (no_controlled_rotation gs name -> Forall (trig_poly (uses gs name)) fs).
Proof.
  intros w n vals c gs st obs Ks name mode key SO FV RN HT NO IN FK EM.
  exists (map (fun K t => mean_density n K (evolve n (at_value vals name t) gs (density_of st))) Ks).
  assert (FU : Forall (usable n vals) gs) by apply RN.
  assert (L : forall b, (b = true -> no_controlled_rotation gs name) -> laurent n b (uses gs name) (fun s => evolve n (at_value vals name (2 * s)) gs (density_of st))).
  { intros b NC. rewrite <- (Nat.add_0_r (uses gs name)). apply (evolve_laurent n vals name b gs FU NC 0 (fun _ => density_of st)). apply laurent_const. }
  split; [rewrite map_length; symmetry; eapply F2_len; apply (FK 0%R)|]. split; [|split].
  - intro t. rewrite map_map. apply (exact_spec w n (at_value vals name t) c gs st obs Ks mode key SO); auto; [apply flat_at; assumption|apply runnable_at; exact RN].
  - rewrite Forall_map. apply Forall_forall. intros K _. apply (laurent_trig n K false (uses gs name) (fun s => evolve n (at_value vals name (2 * s)) gs (density_of st))). apply L. discriminate.
  - intro NC. rewrite Forall_map. apply Forall_forall. intros K _. pose proof (proj2 (laurent_trig n K true (uses gs name) _ (L true (fun _ => NC))) eq_refl) as H.
    eapply trig_ext; [|exact H]. intro t. cbv beta. replace (2 * (t / 2))%R with t by field. reflexivity.
Qed.
