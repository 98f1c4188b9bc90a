(** * Circuits of one-qubit gates and textbook circuits *)
From Coq Require Import String List Arith Bool Reals Lia Lra ZArith.
From Verif Require Import Cplx Py PyFacts Ndarray OperatorUtils Sparse Matrices Noise Gates Apply Composite Conversion Shots Gpsr Api
  Spec SpecFacts Deriv GateSpec PropSpec NoiseSpec SampleSpec ExpectSpec GpsrSpec GateFacts CircuitFacts AlgebraFacts ApplyThm GateThm TensorFacts TensorThm
  KrausThm NoiseThm NoiseThm2 SeqThm SampleThm ShotsSpec ShotsThm ExpectThm ExpectThm2 GpsrFacts GpsrThm GpsrThm2 StructSpec StructThm3 PhysSpec PhysThm NoiseLawThm EvolThm2 CircuitLawSpec CircuitLawThm
  CtorSpec PauliSpec PauliThm HeisSpec TextSpec.
Import ListNotations.
Local Open Scope list_scope.
Local Open Scope nat_scope.

(** ** tensor products *)
Lemma cprod_map : forall {A B} (h : A -> B) l f, cprod (map h l) f = cprod l (fun a => f (h a)).
Proof. intros A B h l f; induction l as [|a l IH]; [reflexivity|]. cbn [map cprod]. rewrite IH. reflexivity. Qed.
Lemma cprod_mul : forall {A} (l : list A) f g, cprod l (fun a => Cmul (f a) (g a)) = Cmul (cprod l f) (cprod l g).
Proof. intros A l f g; induction l as [|a l IH]; cbn [cprod]; [ring|]. rewrite IH. ring. Qed.
Lemma csum_prod : forall n (F : nat -> nat -> C), csum (bitstrings n) (fun z => cprod (seq 0 n) (fun q => F q (nth q z 0))) = cprod (seq 0 n) (fun q => Cadd (F q 0) (F q 1)).
Proof.
  induction n as [|n IH]; intro F; [cbn; ring|]. cbn [bitstrings seq cprod]. rewrite csum_app, !csum_map, <- seq_shift. rewrite cprod_map, <- (IH (fun q => F (S q))).
  assert (E : forall b, csum (bitstrings n) (fun a => Cmul (F 0 (nth 0 (b :: a) 0)) (cprod (map S (seq 0 n)) (fun q => F q (nth q (b :: a) 0)))) =
    Cmul (F 0 b) (csum (bitstrings n) (fun a => cprod (seq 0 n) (fun q => F (S q) (nth q a 0))))).
  { intro b. rewrite <- csum_scale_l. apply csum_ext. intros a _. rewrite cprod_map. reflexivity. }
  rewrite !E. ring.
Qed.
Lemma tensor_ext : forall n A B, (forall q, q < n -> keq 1 (A q) (B q)) -> keq n (tensor_product n A) (tensor_product n B).
Proof.
  intros n A B H x y Hx Hy. unfold tensor_product. apply cprod_ext. intros q I. apply in_seq in I. apply H; [lia| |];
    [pose proof (bitstrings_nth_lt n x q Hx) as L|pose proof (bitstrings_nth_lt n y q Hy) as L]; destruct (nth q _ 0) as [|[|]]; simpl; auto; lia.
Qed.
Lemma tensor_mul : forall n A B, keq n (kmul n (tensor_product n A) (tensor_product n B)) (tensor_product n (fun q => kmul 1 (A q) (B q))).
Proof.
  intros n A B x y Hx Hy. unfold kmul at 1, tensor_product.
  transitivity (csum (bitstrings n) (fun z => cprod (seq 0 n) (fun q => (fun q b => Cmul (A q [nth q x 0] [b]) (B q [b] [nth q y 0])) q (nth q z 0)))).
  - apply csum_ext. intros z _. rewrite <- cprod_mul. reflexivity.
  - rewrite (csum_prod n (fun q b => Cmul (A q [nth q x 0] [b]) (B q [b] [nth q y 0]))). apply cprod_ext. intros q _. unfold kmul. change (bitstrings 1) with [[0]; [1]]. cbn [csum]. ring.
Qed.
Lemma tensor_kid : forall n, keq n (tensor_product n (fun _ => kid)) kid.
Proof.
  intros n. eapply keq_trans; [|apply string_nil]. unfold string_matrix. cbn [letter_at letter_matrix]. apply (tensor_ext n (fun _ => kid) (fun _ => I_matrix)).
  intros q _ x y Hx Hy. destruct Hx as [<-|[<-|[]]], Hy as [<-|[<-|[]]]; reflexivity.
Qed.
Lemma gate_tensor : forall n G q, q < n -> keq n (gate_op G [] [q]) (tensor_product n (fun q' => if Nat.eqb q' q then G else kid)).
Proof.
  intros n G q Hq x y Hx Hy. unfold gate_op, ctrl_kernel. cbn [bits_at map all_ones forallb length]. fold (bits_at x [q]). cbn [bits_at map].
  change (bitstrings 1) with [[0]; [1]]. cbn [csum].
  pose proof (bitstrings_length n x Hx) as Lx. pose proof (bitstrings_nth_lt n y q Hy) as By.
  assert (IQ : In q (seq 0 n)) by (apply in_seq; lia).
  set (rest := cprod (remove Nat.eq_dec q (seq 0 n)) (fun q' => kid [nth q' x 0] [nth q' y 0])).
  assert (R1 : tensor_product n (fun q' => if Nat.eqb q' q then G else kid) x y = Cmul (G [nth q x 0] [nth q y 0]) rest).
  { unfold tensor_product. rewrite (cprod_split q) by (try apply seq_NoDup; exact IQ). rewrite Nat.eqb_refl. f_equal. apply cprod_ext. intros q' I.
    apply in_remove in I as [_ D]. destruct (Nat.eqb_spec q' q); [congruence|reflexivity]. }
  assert (R2 : forall b, b < 2 -> kid (overwrite x [q] [b]) y = Cmul (kid [b] [nth q y 0]) rest).
  { intros b Hb. assert (HO : In (overwrite x [q] [b]) (bitstrings n)).
    { apply overwrite_bits; [exact Hx|]. destruct b as [|[|]]; simpl; auto; lia. }
    rewrite <- (tensor_kid n _ y HO Hy). unfold tensor_product. rewrite (cprod_split q) by (try apply seq_NoDup; exact IQ). f_equal.
    - do 2 f_equal. cbn [overwrite]. rewrite nth_set_bit_eq by lia. reflexivity.
    - apply cprod_ext. intros q' I. apply in_remove in I as [_ D]. rewrite nth_overwrite_notin by (intros [E|[]]; congruence). reflexivity. }
  rewrite R1, !R2 by lia. destruct (nth q y 0) as [|[|b]]; [| |lia]; unfold kid; cbn; ring.
Qed.
(** ** circuits of one-qubit gates *)
Lemma acts_uop : forall n vals gs Ms, Forall (one_qubit n vals) gs -> (forall q, q < n -> acts_as vals q gs (Ms q)) -> keq n (uop n vals gs) (tensor_product n Ms).
Proof.
  intros n vals gs; induction gs as [|g gs IH]; intros Ms F H; cbn [uop].
  - eapply keq_trans; [apply keq_sym, tensor_kid|]. apply tensor_ext. intros q Hq. specialize (H q Hq). inversion H; subst. apply keq_refl.
  - inversion F as [|? ? (q & G & [GM GC GT GV]) F']; subst. assert (Hq : q < n) by (destruct GV as [_ V]; inversion V; assumption).
    assert (EX : forall q', exists M', (q' < n -> acts_as vals q' gs M') /\ (q' < n -> keq 1 (Ms q') (kmul 1 M' (if Nat.eqb q' q then G else kid)))).
    { intro q'. destruct (lt_dec q' n) as [L|L]; [|exists kid; split; intro; lia]. specialize (H q' L). inversion H as [|? ? ? D A|? ? G' M T GM' A]; subst.
      - exists (Ms q'). split; intros _; [exact A|]. destruct (Nat.eqb_spec q' q) as [->|]; [congruence|]. apply keq_sym, kmul_id_r.
      - exists M. split; intros _; [exact A|]. rewrite GT in T. injection T as ->. rewrite Nat.eqb_refl. rewrite <- (mat_of_spec _ _ _ GM), (mat_of_spec _ _ _ GM'). apply keq_refl. }
    assert (CH : exists Ms', forall q', q' < n -> acts_as vals q' gs (Ms' q') /\ keq 1 (Ms q') (kmul 1 (Ms' q') (if Nat.eqb q' q then G else kid))).
    { assert (K : forall m, m <= n -> exists Ms', forall q', q' < m -> acts_as vals q' gs (Ms' q') /\ keq 1 (Ms q') (kmul 1 (Ms' q') (if Nat.eqb q' q then G else kid))).
      { induction m as [|m IHm]; intro L; [exists (fun _ => kid); intros; lia|]. destruct IHm as (Ms' & P); [lia|]. destruct (EX m) as (M & A & B).
        exists (fun q' => if Nat.eqb q' m then M else Ms' q'). intros q' Hq'. destruct (Nat.eqb_spec q' m) as [->|D]; [split; [apply A|apply B]; lia|apply P; lia]. }
      apply (K n). lia. }
    destruct CH as (Ms' & P). eapply keq_trans; [apply kmul_ext; [apply (IH Ms' F'); intros q' L; apply P; exact L|]|].
    + unfold kop. rewrite (mat_of_spec _ _ _ GM), (ctrl_of_spec _ _ GC), GT. apply gate_tensor. exact Hq.
    + eapply keq_trans; [apply tensor_mul|]. apply tensor_ext. intros q' L. apply keq_sym, P. exact L.
Qed.
Lemma one_usable : forall n vals gs, Forall (one_qubit n vals) gs -> Forall (usable n vals) gs.
Proof. intros n vals gs F. eapply Forall_impl; [|exact F]. intros g (q & G & H). do 3 eexists. exact H. Qed.
Lemma c121_separately : forall w n vals c gs psi Ms, sequence_of c gs -> Forall dense_gate gs -> Forall noiseless gs -> Forall (one_qubit n vals) gs ->
    (forall q, q < n -> acts_as vals q gs (Ms q)) -> is_state n psi ->
    exists out, run w c (SDense psi) vals = Ok (Some (SDense out)) /\ is_state n out /\
      (forall x, In x (bitstrings n) -> amp out x = csum (bitstrings n) (fun y => Cmul (tensor_product n Ms x y) (amp psi y))) /\
      (forall b, In b (bitstrings n) -> psi = product_state b -> forall x, In x (bitstrings n) -> amp out x = cprod (seq 0 n) (fun q => Ms q [nth q x 0] [nth q b 0])).
Proof.
  intros w n vals c gs psi Ms S FD FN F1 A HP. pose proof (one_usable _ _ _ F1) as FU.
  destruct (call_pure w n vals c gs _ psi S FD FN (uop_circuit n vals gs FU) HP) as (out & E & So & V). exists out. split; [exact E|split; [exact So|]].
  assert (K : forall x, In x (bitstrings n) -> amp out x = csum (bitstrings n) (fun y => Cmul (tensor_product n Ms x y) (amp psi y))).
  { intros x Hx. rewrite (V x Hx). unfold apply_kernel. apply csum_ext. intros y Hy. rewrite (acts_uop n vals gs Ms F1 A x y Hx Hy). reflexivity. }
  split; [exact K|]. intros b Hb -> x Hx. rewrite (K x Hx). destruct (c72_product_thm n b Hb) as (_ & VK & _).
  transitivity (csum (bitstrings n) (fun y => if list_eq_dec Nat.eq_dec y b then tensor_product n Ms x y else C0)).
  - apply csum_ext. intros y Hy. rewrite (VK y Hy). unfold ket. destruct (list_eq_dec Nat.eq_dec y b); ring.
  - rewrite (csum_single _ b); [destruct (list_eq_dec Nat.eq_dec b b); [reflexivity|congruence]|apply bitstrings_NoDup|exact Hb|].
    intros y _ D. destruct (list_eq_dec Nat.eq_dec y b); [contradiction|reflexivity].
Qed.
(** ** layers of one gate *)
Definition simple_mk (vals : values) (mk : target_arg -> index_arg -> option (list noise_inst) -> bool -> gate) (G : op) : Prop :=
  forall q, gate_matrix vals (plain mk q) G /\ control (plain mk q) = CTup [QNone] /\ target (plain mk q) = [q] /\ sparse (plain mk q) = false /\ noise (plain mk q) = None.
Lemma mk_X : forall vals, simple_mk vals gX X_matrix.
Proof. intros vals q. repeat split. eapply gm_fixed; simpl; eauto 10. Qed.
Lemma mk_Z : forall vals, simple_mk vals gZ Z_matrix.
Proof. intros vals q. repeat split. eapply gm_fixed; simpl; eauto 10. Qed.
Lemma mk_H : forall vals, simple_mk vals gH H_matrix.
Proof. intros vals q. repeat split. eapply gm_fixed; simpl; eauto 10. Qed.
Lemma layer_ok : forall n vals mk G l, simple_mk vals mk G -> Forall (fun q => q < n) l ->
    Forall (one_qubit n vals) (map (plain mk) l) /\ Forall dense_gate (map (plain mk) l) /\ Forall noiseless (map (plain mk) l).
Proof.
  intros n vals mk G l S F. induction F as [|q l Hq F (A & B & D)]; cbn [map]; [repeat split; constructor|]. destruct (S q) as (GM & GC & GT & GS & GN).
  repeat split; constructor; auto. exists q, G. split; [exact GM|rewrite GC; apply cq_default|exact GT|split; [repeat constructor; simpl; tauto|constructor; [exact Hq|constructor]]].
Qed.
Lemma layer_acts : forall vals mk G l q, simple_mk vals mk G -> NoDup l -> acts_as vals q (map (plain mk) l) (if in_dec Nat.eq_dec q l then kmul 1 kid G else kid).
Proof.
  intros vals mk G l q S ND. induction ND as [|q' l NI ND IH]; cbn [map]; [apply aa_nil|]. destruct (S q') as (GM & GC & GT & _).
  destruct (Nat.eq_dec q' q) as [->|D].
  - destruct (in_dec Nat.eq_dec q (q :: l)) as [_|N]; [|elim N; left; reflexivity]. apply aa_here; [exact GT|exact GM|]. destruct (in_dec Nat.eq_dec q l); [contradiction|exact IH].
  - apply aa_other; [rewrite GT; congruence|]. destruct (in_dec Nat.eq_dec q l) as [I|N], (in_dec Nat.eq_dec q (q' :: l)) as [I'|N']; try exact IH; [elim N'; right; exact I|destruct I' as [E|I']; [congruence|contradiction]].
Qed.
Lemma layer_uop : forall n vals mk G l, simple_mk vals mk G -> Forall (fun q => q < n) l -> NoDup l ->
    keq n (uop n vals (map (plain mk) l)) (tensor_product n (fun q => if in_dec Nat.eq_dec q l then kmul 1 kid G else kid)).
Proof. intros n vals mk G l S F ND. apply acts_uop; [eapply layer_ok; eassumption|]. intros q _. apply layer_acts; assumption. Qed.
Lemma seq_lt : forall n m, m <= n -> Forall (fun q => q < n) (seq 0 m).
Proof. intros n m L. apply Forall_forall. intros q I. apply in_seq in I. lia. Qed.
Lemma seq_in : forall n q, q < n -> exists I, in_dec Nat.eq_dec q (seq 0 n) = left I.
Proof. intros n q H. destruct (in_dec Nat.eq_dec q (seq 0 n)) as [I|N]; [eauto|]. elim N. apply in_seq. lia. Qed.
Lemma bit1 : forall n x q, In x (bitstrings n) -> nth q x 0 = 0 \/ nth q x 0 = 1.
Proof. intros n x q H. pose proof (bitstrings_nth_lt n x q H). lia. Qed.
Lemma hadamards_uop : forall n vals, keq n (uop n vals (hadamards n)) (tensor_product n (fun _ => H_matrix)).
Proof.
  intros n vals. eapply keq_trans; [apply (layer_uop n vals gH H_matrix (seq 0 n) (mk_H vals)); [apply seq_lt; lia|apply seq_NoDup]|]. apply tensor_ext. intros q Hq.
  destruct (seq_in n q Hq) as (I & ->). apply kmul_id_l.
Qed.
Lemma tensor_ket : forall n Ms b x, In b (bitstrings n) -> In x (bitstrings n) -> apply_kernel n (tensor_product n Ms) (ket b) x = tensor_product n Ms x b.
Proof.
  intros n Ms b x Hb Hx. unfold apply_kernel.
  rewrite (csum_single _ b); [unfold ket; destruct (list_eq_dec Nat.eq_dec b b); [ring|congruence]|apply bitstrings_NoDup|exact Hb|].
  intros y _ D. unfold ket. destruct (list_eq_dec Nat.eq_dec y b); [contradiction|ring].
Qed.
Lemma run_from_ket : forall w n vals c gs b, sequence_of c gs -> Forall dense_gate gs -> Forall noiseless gs -> Forall (usable n vals) gs -> In b (bitstrings n) ->
    exists out, run w c (SDense (product_state b)) vals = Ok (Some (SDense out)) /\ is_state n out /\ veq n (amp out) (apply_kernel n (uop n vals gs) (ket b)).
Proof.
  intros w n vals c gs b S FD FN FU Hb. destruct (c72_product_thm n b Hb) as (SP & VK & _).
  destruct (call_pure w n vals c gs _ _ S FD FN (uop_circuit n vals gs FU) SP) as (out & E & So & V). exists out. split; [exact E|split; [exact So|]].
  intros x Hx. rewrite (V x Hx). apply apply_kernel_ext; [apply keq_refl|exact VK|exact Hx].
Qed.
(** ** the Hadamard transform *)
Lemma c121_hadamards : forall w n vals c b, sequence_of c (hadamards n) -> In b (bitstrings n) ->
    exists out, run w c (SDense (product_state b)) vals = Ok (Some (SDense out)) /\ is_state n out /\
      forall x, In x (bitstrings n) -> amp out x = RtoC ((1 / sqrt 2) ^ n * (-1) ^ common_ones n x b).
Proof.
  intros w n vals c b S Hb. destruct (layer_ok n vals gH H_matrix (seq 0 n) (mk_H vals) (seq_lt n n (le_n n))) as (F1 & FD & FN).
  destruct (run_from_ket w n vals c _ b S FD FN (one_usable _ _ _ F1) Hb) as (out & E & So & V). exists out. split; [exact E|split; [exact So|]].
  intros x Hx. rewrite (V x Hx). transitivity (tensor_product n (fun _ => H_matrix) x b).
  { rewrite <- tensor_ket by assumption. apply apply_kernel_ext; [apply hadamards_uop|intros ? _; reflexivity|exact Hx]. }
  unfold tensor_product, common_ones. assert (L : length (seq 0 n) = n) by apply seq_length. rewrite <- L at 2. generalize (seq 0 n). intro l.
  induction l as [|q l IH]; [cbn; apply C_ext; simpl; ring|]. cbn [cprod filter length pow]. rewrite IH.
  unfold H_matrix. cbv zeta. unfold Cn. destruct (bit1 n x q Hx) as [-> | ->], (bit1 n b q Hb) as [-> | ->]; cbn [mat2 Nat.eqb andb length pow]; apply C_ext; simpl; ring.
Qed.
Lemma common_zero : forall n x, common_ones n x (repeat 0 n) = 0.
Proof.
  intros n x. unfold common_ones. replace (filter _ (seq 0 n)) with (@nil nat); [reflexivity|]. symmetry. generalize (seq 0 n). intro l. induction l as [|q l IH]; [reflexivity|].
  cbn [filter]. rewrite nth_repeat. rewrite andb_false_r. exact IH.
Qed.
Lemma root_pow : forall n, ((1 / sqrt 2) ^ n = 1 / sqrt (2 ^ n))%R.
Proof.
  assert (P : (0 < sqrt 2)%R) by (apply sqrt_lt_R0; lra).
  induction n as [|n IH]; [simpl; rewrite sqrt_1; field|]. cbn [pow]. rewrite IH, sqrt_mult by (try lra; apply pow_le; lra).
  assert (0 < sqrt (2 ^ n))%R by (apply sqrt_lt_R0, pow_lt; lra). field. split; lra.
Qed.
Lemma c121_uniform : forall w n vals c, sequence_of c (hadamards n) ->
    exists u, uniform_state n = Ok u /\ run w c (SDense (zero_state n)) vals = Ok (Some (SDense u)).
Proof.
  intros w n vals c S. destruct (c72_uniform_thm n) as (a & ? & E & Sa & V & ?). exists a. split; [exact E|].
  destruct (c121_hadamards w n vals c _ S (zeros_bits n)) as (out & R & So & V'). unfold zero_state. rewrite R. do 3 f_equal. apply (state_ext n); [exact So|exact Sa|].
  intros z Hz. rewrite (V z Hz), (V' z Hz), common_zero, root_pow. f_equal. cbn [pow]. ring.
Qed.
(** ** X gates prepare basis states *)
Lemma ones_spec : forall s q, q < length s -> (In q (ones s) <-> nth q s 0 = 1).
Proof. intros s q H. unfold ones. rewrite filter_In, in_seq, Nat.eqb_eq. intuition lia. Qed.
Lemma ones_ok : forall n s, length s <= n -> Forall (fun q => q < n) (ones s) /\ NoDup (ones s).
Proof.
  intros n s L. split; [|apply NoDup_filter, seq_NoDup]. apply Forall_forall. intros q I. apply filter_In in I as [I _]. apply in_seq in I. lia.
Qed.
Lemma kid_bits : forall a b, a < 2 -> b < 2 -> kid [a] [b] = if Nat.eqb a b then C1 else C0.
Proof. intros a b Ha Hb. destruct a as [|[|]], b as [|[|]]; try lia; reflexivity. Qed.
Lemma kid_ket : forall b x, kid x b = ket b x.
Proof. reflexivity. Qed.
Lemma c121_basis : forall w n vals c b, In b (bitstrings n) -> sequence_of c (map (plain gX) (ones b)) -> run w c (SDense (zero_state n)) vals = Ok (Some (SDense (product_state b))).
Proof.
  intros w n vals c b Hb S. pose proof (bitstrings_length n b Hb) as L. destruct (ones_ok n b) as [OL ON]; [lia|]. destruct (layer_ok n vals gX X_matrix (ones b) (mk_X vals) OL) as (F1 & FD & FN).
  destruct (run_from_ket w n vals c _ (repeat 0 n) S FD FN (one_usable _ _ _ F1) (zeros_bits n)) as (out & E & So & V). unfold zero_state. rewrite E. do 3 f_equal.
  destruct (c72_product_thm n b Hb) as (SP & VK & _). apply (state_ext n); [exact So|exact SP|]. intros x Hx. rewrite (V x Hx), (VK x Hx).
  transitivity (tensor_product n (fun q => if in_dec Nat.eq_dec q (ones b) then kmul 1 kid X_matrix else kid) x (repeat 0 n)).
  { rewrite <- tensor_ket by (assumption || apply zeros_bits). apply apply_kernel_ext; [apply (layer_uop n vals gX X_matrix (ones b) (mk_X vals) OL ON)|intros ? _; reflexivity|exact Hx]. }
  rewrite <- kid_ket, <- (tensor_kid n x b Hx Hb). unfold tensor_product. apply cprod_ext. intros q I. apply in_seq in I. rewrite nth_repeat.
  pose proof (ones_spec b q) as OS. destruct (in_dec Nat.eq_dec q (ones b)) as [J|J].
  - apply OS in J; [|lia]. rewrite J. destruct (bit1 n x q Hx) as [-> | ->]; cbn; unfold kid; cbn; ring.
  - destruct (bit1 n b q Hb) as [->|Q]; [reflexivity|]. elim J. apply OS; [lia|exact Q].
Qed.
(** ** CNOTs *)
Lemma cnot_apply : forall n vals c t psi x, In x (bitstrings n) ->
    apply_kernel n (kop vals (cnot c t)) psi x = if Nat.eqb (nth c x 0) 1 then psi (overwrite x [t] [1 - nth t x 0]) else psi x.
Proof.
  intros n vals c t psi x Hx. change (kop vals (cnot c t)) with (ctrl_kernel X_matrix [c] [t]). rewrite ctrl_kernel_action by exact Hx. unfold ctrl_action, gate_action.
  cbn [bits_at map all_ones forallb]. rewrite andb_true_r, Nat.eqb_sym. destruct (Nat.eqb (nth c x 0) 1); [|reflexivity]. cbn [length]. change (bitstrings 1) with [[0]; [1]]. cbn [csum].
  destruct (bit1 n x t Hx) as [-> | ->]; cbn; ring.
Qed.
Lemma gate1_apply : forall n vals mk G q psi x, simple_mk vals mk G -> In x (bitstrings n) ->
    apply_kernel n (kop vals (plain mk q)) psi x = Cadd (Cmul (G [nth q x 0] [0]) (psi (overwrite x [q] [0]))) (Cmul (G [nth q x 0] [1]) (psi (overwrite x [q] [1]))).
Proof.
  intros n vals mk G q psi x S Hx. destruct (S q) as (GM & GC & GT & _). unfold kop, gate_op. rewrite (mat_of_spec _ _ _ GM), GC, GT. cbn [ctrl_of flat_map app]. 
  rewrite ctrl_kernel_action by exact Hx. unfold ctrl_action, gate_action. cbn [bits_at map all_ones forallb length]. change (bitstrings 1) with [[0]; [1]]. cbn [csum]. ring.
Qed.
Lemma cnot_usable : forall n vals c t, c < n -> t < n -> c <> t -> usable n vals (cnot c t).
Proof.
  intros n vals c t Hc Ht D. exists X_matrix, [c], [t]. split; [eapply gm_fixed; simpl; eauto 10|apply (cq_ints [c])|reflexivity|].
  split; [|repeat constructor; assumption]. constructor; [intros [E|[]]; congruence|constructor; [intros []|constructor]].
Qed.
Lemma ow_self : forall n x q, In x (bitstrings n) -> q < n -> overwrite x [q] [nth q x 0] = x.
Proof.
  intros n x q Hx Hq. pose proof (bitstrings_length n x Hx) as L. apply (nth_ext _ _ 0 0); [apply set_bit_length|]. intros p Hp. cbn [overwrite].
  destruct (Nat.eq_dec p q) as [->|D]; [rewrite nth_set_bit_eq by lia; reflexivity|]. change (set_bit x q (nth q x 0)) with (overwrite x [q] [nth q x 0]). apply nth_overwrite_notin. intros [E|[]]; congruence.
Qed.
(** ** GHZ states *)
Definition ghz_end (n j : nat) : list nat := map (fun q => if Nat.leb q j then 1 else 0) (seq 0 n).
Lemma ghz_end_nth : forall n j q, q < n -> nth q (ghz_end n j) 0 = if Nat.leb q j then 1 else 0.
Proof.
  intros n j q H. unfold ghz_end. rewrite (nth_indep _ 0 ((fun p => if Nat.leb p j then 1 else 0) 0)) by (rewrite map_length, seq_length; exact H).
  rewrite (map_nth (fun p => if Nat.leb p j then 1 else 0)), seq_nth by exact H. reflexivity.
Qed.
Lemma ghz_end_length : forall n j, length (ghz_end n j) = n.
Proof. intros. unfold ghz_end. rewrite map_length, seq_length. reflexivity. Qed.
Lemma kid_off : forall x y q, nth q x 0 <> nth q y 0 -> kid x y = C0.
Proof. intros x y q D. unfold kid. destruct (list_eq_dec Nat.eq_dec x y) as [->|]; [congruence|reflexivity]. Qed.
Lemma kid_flip : forall n x y t, In x (bitstrings n) -> length y = n -> t < n -> nth t y 0 < 2 -> kid (overwrite x [t] [1 - nth t x 0]) y = kid x (overwrite y [t] [1 - nth t y 0]).
Proof.
  intros n x y t Hx Ly Ht By. pose proof (bitstrings_length n x Hx) as Lx. pose proof (bitstrings_nth_lt n x t Hx) as Bx.
  assert (A : forall u, nth t u 0 < 2 -> length u = n -> overwrite (overwrite u [t] [1 - nth t u 0]) [t] [1 - nth t (overwrite u [t] [1 - nth t u 0]) 0] = u).
  { intros u Bu Lu. cbn [overwrite]. rewrite nth_set_bit_eq by lia. apply (nth_ext _ _ 0 0); [rewrite !set_bit_length; reflexivity|]. intros p Hp.
    destruct (Nat.eq_dec p t) as [->|D]; [rewrite nth_set_bit_eq by (rewrite set_bit_length; lia); lia|].
    change (nth p (overwrite (overwrite u [t] [1 - nth t u 0]) [t] [1 - (1 - nth t u 0)]) 0 = nth p u 0). rewrite !nth_overwrite_notin by (intros [E|[]]; congruence). reflexivity. }
  unfold kid. destruct (list_eq_dec Nat.eq_dec _ y) as [E|E], (list_eq_dec Nat.eq_dec x _) as [E'|E']; try reflexivity.
  - elim E'. rewrite <- E. symmetry. apply A; assumption.
  - elim E. rewrite E'. apply A; assumption.
Qed.
Lemma ghz_steps : forall n vals j x, j < n -> In x (bitstrings n) ->
    apply_kernel n (uop n vals (plain gH 0 :: map (fun q => cnot q (S q)) (seq 0 j))) (ket (repeat 0 n)) x = Cmul (RtoC (1 / sqrt 2)) (Cadd (kid x (repeat 0 n)) (kid x (ghz_end n j))).
Proof.
  intros n vals j; induction j as [|j IH]; intros x Hj Hx.
  - cbn [seq map uop]. rewrite (apply_kernel_mul n _ _ _ x Hx), (apply_kernel_id n _ x Hx), (gate1_apply n vals gH H_matrix 0 _ x (mk_H vals) Hx).
    pose proof (bitstrings_length n x Hx) as Lx.
    assert (Z1 : ket (repeat 0 n) (overwrite x [0] [1]) = C0). { rewrite <- kid_ket. apply (kid_off _ _ 0). cbn [overwrite]. rewrite nth_set_bit_eq, nth_repeat by lia. discriminate. }
    rewrite Z1. rewrite <- kid_ket. destruct (bit1 n x 0 Hx) as [Q|Q]; rewrite Q.
    + rewrite (kid_off x (ghz_end n 0) 0) by (rewrite ghz_end_nth, Q by lia; discriminate). pose proof (ow_self n x 0 Hx Hj) as OS. rewrite Q in OS. rewrite OS. unfold H_matrix, Cn. cbn. ring.
    + rewrite (kid_off x (repeat 0 n) 0) by (rewrite nth_repeat, Q; discriminate).
      assert (F : overwrite (repeat 0 n) [0] [1 - nth 0 (repeat 0 n) 0] = ghz_end n 0).
      { rewrite nth_repeat. apply (nth_ext _ _ 0 0); [cbn [overwrite]; rewrite set_bit_length, repeat_length, ghz_end_length; reflexivity|]. intros p Hp. cbn [overwrite] in Hp. rewrite set_bit_length, repeat_length in Hp.
        rewrite ghz_end_nth by exact Hp. destruct p as [|p]; [cbn [overwrite]; rewrite nth_set_bit_eq by (rewrite repeat_length; lia); reflexivity|].
        rewrite nth_overwrite_notin by (intros [E|[]]; discriminate). rewrite nth_repeat. reflexivity. }
      pose proof (kid_flip n x (repeat 0 n) 0 Hx (repeat_length 0 n) Hj) as KF. rewrite nth_repeat in KF. specialize (KF Nat.lt_0_2). rewrite Q in KF. cbn [Nat.sub] in KF. rewrite nth_repeat in F. rewrite KF. cbn [Nat.sub] in F. rewrite F. unfold H_matrix, Cn. cbn. ring.
  - rewrite seq_S, map_app. cbn [map plus].
    transitivity (apply_kernel n (kmul n (uop n vals [cnot j (S j)]) (uop n vals (plain gH 0 :: map (fun q => cnot q (S q)) (seq 0 j)))) (ket (repeat 0 n)) x).
    { apply apply_kernel_ext; [|intros ? _; reflexivity|exact Hx]. exact (uop_app n vals (plain gH 0 :: map (fun q => cnot q (S q)) (seq 0 j)) [cnot j (S j)]). }
    rewrite (apply_kernel_mul n _ _ _ x Hx). cbn [uop].
    transitivity (apply_kernel n (kop vals (cnot j (S j))) (fun y => Cmul (RtoC (1 / sqrt 2)) (Cadd (kid y (repeat 0 n)) (kid y (ghz_end n j)))) x).
    { apply apply_kernel_ext; [apply kmul_id_l| |exact Hx]. intros y Hy. apply IH; [lia|exact Hy]. }
    rewrite cnot_apply by exact Hx. f_equal. destruct (bit1 n x j Hx) as [Q|Q]; rewrite Q; cbn [Nat.eqb].
    + rewrite (kid_off x (ghz_end n j) j), (kid_off x (ghz_end n (S j)) j).
      * reflexivity.
      * rewrite Q, ghz_end_nth by lia. replace (Nat.leb j (S j)) with true by (symmetry; apply Nat.leb_le; lia). discriminate.
      * rewrite Q, ghz_end_nth, Nat.leb_refl by lia. discriminate.
    + f_equal. f_equal.
      * rewrite (kid_off (overwrite x [S j] _) (repeat 0 n) j), (kid_off x (repeat 0 n) j).
        -- reflexivity.
        -- rewrite nth_repeat, Q. discriminate.
        -- rewrite nth_overwrite_notin by (intros [E|[]]; lia). rewrite nth_repeat, Q. discriminate.
      * rewrite (kid_flip n) by (try assumption; try apply ghz_end_length; rewrite ghz_end_nth by lia; destruct (Nat.leb _ _); lia). f_equal.
        apply (nth_ext _ _ 0 0); [cbn [overwrite]; rewrite set_bit_length, !ghz_end_length; reflexivity|]. intros p Hp. cbn [overwrite] in Hp. rewrite set_bit_length, ghz_end_length in Hp.
        rewrite (ghz_end_nth n j (S j)) by exact Hj. replace (Nat.leb (S j) j) with false by (symmetry; apply Nat.leb_gt; lia). cbn [Nat.sub].
        destruct (Nat.eq_dec p (S j)) as [->|D]; [cbn [overwrite]; rewrite nth_set_bit_eq by (rewrite ghz_end_length; lia); rewrite ghz_end_nth, Nat.leb_refl by exact Hp; reflexivity|].
        rewrite nth_overwrite_notin by (intros [E|[]]; congruence). rewrite !ghz_end_nth by exact Hp. destruct (Nat.leb_spec p j), (Nat.leb_spec p (S j)); try reflexivity; lia.
Qed.
Lemma ghz_ok : forall n vals, 0 < n -> Forall (usable n vals) (ghz n) /\ Forall dense_gate (ghz n) /\ Forall noiseless (ghz n).
Proof.
  intros n vals H. unfold ghz. destruct (layer_ok n vals gH H_matrix [0] (mk_H vals)) as (F1 & FD & FN); [repeat constructor; exact H|]. apply one_usable in F1. cbn [map] in *.
  assert (A : Forall (fun q => S q < n) (seq 0 (n - 1))) by (apply Forall_forall; intros q I; apply in_seq in I; lia).
  repeat split; (apply Forall_cons; [inversion F1; inversion FD; inversion FN; assumption|]); apply Forall_map; eapply Forall_impl; try exact A; intros q Hq; try reflexivity.
  cbv beta in Hq; apply cnot_usable; lia.
Qed.
Lemma c121_ghz : forall w n vals c, 0 < n -> sequence_of c (ghz n) ->
    exists out, run w c (SDense (zero_state n)) vals = Ok (Some (SDense out)) /\ is_state n out /\
      forall x, In x (bitstrings n) -> amp out x = if orb (forallb (Nat.eqb 0) x) (forallb (Nat.eqb 1) x) then RtoC (1 / sqrt 2) else C0.
Proof.
  intros w n vals c Hn S. destruct (ghz_ok n vals Hn) as (FU & FD & FN). destruct (run_from_ket w n vals c _ _ S FD FN FU (zeros_bits n)) as (out & E & So & V).
  exists out. split; [exact E|split; [exact So|]]. intros x Hx. rewrite (V x Hx). unfold ghz. rewrite ghz_steps by (assumption || lia). pose proof (bitstrings_length n x Hx) as Lx.
  assert (F : forall b, forallb (Nat.eqb b) x = true <-> x = repeat b n).
  { intro b. rewrite forallb_forall, <- Lx. split; [|intros Q a I; rewrite Q in I; apply repeat_spec in I; subst a; apply Nat.eqb_refl]. clear. induction x as [|a x IH]; intro H; [reflexivity|]. cbn. f_equal.
    - symmetry. apply Nat.eqb_eq, H. left; reflexivity.
    - apply IH. intros c I. apply H. right; exact I. }
  assert (G : ghz_end n (n - 1) = repeat 1 n).
  { apply (nth_ext _ _ 0 0); [rewrite ghz_end_length, repeat_length; reflexivity|]. intros p Hp. rewrite ghz_end_length in Hp. rewrite ghz_end_nth by exact Hp.
    replace (Nat.leb p (n - 1)) with true by (symmetry; apply Nat.leb_le; lia). symmetry. clear -Hp. revert p Hp. induction n as [|n IH]; intros [|p] Hp; try lia; [reflexivity|]. cbn. apply IH. lia. }
  rewrite G. unfold kid. assert (D : repeat 0 n <> repeat 1 n) by (destruct n; [lia|discriminate]).
  destruct (list_eq_dec Nat.eq_dec x (repeat 0 n)) as [E0|N0].
  - destruct (list_eq_dec Nat.eq_dec x (repeat 1 n)); [congruence|]. rewrite (proj2 (F 0) E0). cbn [orb]. ring.
  - destruct (forallb (Nat.eqb 0) x) eqn:B0; [elim N0; apply F; exact B0|]. destruct (list_eq_dec Nat.eq_dec x (repeat 1 n)) as [E1|N1].
    + rewrite (proj2 (F 1) E1). cbn [orb]. ring.
    + destruct (forallb (Nat.eqb 1) x) eqn:B1; [elim N1; apply F; exact B1|]. cbn [orb]. ring.
Qed.
(** ** Bernstein-Vazirani *)
Definition antisymmetric (n t : nat) (psi : vec) : Prop := forall x, In x (bitstrings n) -> psi (overwrite x [t] [1 - nth t x 0]) = Copp (psi x).
Lemma ow_in : forall n x t b, In x (bitstrings n) -> b < 2 -> In (overwrite x [t] [b]) (bitstrings n).
Proof. intros n x t b Hx Hb. apply overwrite_bits; [exact Hx|]. destruct b as [|[|]]; simpl; auto; lia. Qed.
Lemma Z_apply : forall n vals q psi x, q < n -> In x (bitstrings n) -> apply_kernel n (kop vals (plain gZ q)) psi x = if Nat.eqb (nth q x 0) 1 then Copp (psi x) else psi x.
Proof.
  intros n vals q psi x Hq Hx. rewrite (gate1_apply n vals gZ Z_matrix q psi x (mk_Z vals) Hx). pose proof (ow_self n x q Hx Hq) as OS.
  destruct (bit1 n x q Hx) as [Q|Q]; rewrite Q in *; rewrite OS; cbn; ring.
Qed.
Lemma anti_cnot : forall n vals t c psi, c < n -> antisymmetric n t psi -> veq n (apply_kernel n (kop vals (cnot c t)) psi) (apply_kernel n (kop vals (plain gZ c)) psi).
Proof. intros n vals t c psi Hc A x Hx. rewrite cnot_apply, Z_apply by assumption. destruct (Nat.eqb _ 1); [apply A; exact Hx|reflexivity]. Qed.
Lemma anti_ext : forall n t f g, veq n f g -> antisymmetric n t f -> antisymmetric n t g.
Proof.
  intros n t f g V A x Hx. rewrite <- (V x Hx), <- V; [apply A; exact Hx|]. apply ow_in; [exact Hx|]. pose proof (bitstrings_nth_lt n x t Hx). lia.
Qed.
Lemma anti_Z : forall n vals t c psi, c < n -> c <> t -> antisymmetric n t psi -> antisymmetric n t (apply_kernel n (kop vals (plain gZ c)) psi).
Proof.
  intros n vals t c psi Hc D A x Hx. pose proof (bitstrings_nth_lt n x t Hx) as B. rewrite !Z_apply by (try assumption; apply ow_in; try assumption; lia).
  rewrite nth_overwrite_notin by (intros [E|[]]; congruence). rewrite (A x Hx). destruct (Nat.eqb _ 1); reflexivity.
Qed.
Lemma oracle_is_Z : forall n vals t l psi, Forall (fun c => c < n /\ c <> t) l -> antisymmetric n t psi ->
    veq n (apply_kernel n (uop n vals (map (fun q => cnot q t) l)) psi) (apply_kernel n (uop n vals (map (plain gZ) l)) psi).
Proof.
  intros n vals t l psi F; revert psi; induction F as [|c l [Hc D] F IH]; intros psi A x Hx; cbn [map uop]; [reflexivity|]. rewrite !(apply_kernel_mul n _ _ _ x Hx).
  pose proof (anti_cnot n vals t c psi Hc A) as V. rewrite <- (IH _ (anti_Z n vals t c psi Hc D A) x Hx). apply apply_kernel_ext; [apply keq_refl|exact V|exact Hx].
Qed.
Lemma bits_app : forall a b x y, In x (bitstrings a) -> In y (bitstrings b) -> In (x ++ y) (bitstrings (a + b)).
Proof.
  intros a b x y; revert x; induction a as [|a IH]; intros x Hx Hy; [destruct Hx as [<-|[]]; exact Hy|]. cbn [bitstrings plus] in *. apply in_app_iff in Hx as [Hx|Hx]; apply in_map_iff in Hx as (z & <- & Hz);
    apply in_app_iff; [left|right]; cbn [app]; apply in_map; apply IH; assumption.
Qed.
Lemma bv_minus : forall n vals, antisymmetric (S n) n (apply_kernel (S n) (uop (S n) vals (plain gX n :: hadamards (S n))) (ket (repeat 0 (S n)))).
Proof.
  intros n vals. set (Ms := fun q => kmul 1 H_matrix (if in_dec Nat.eq_dec q [n] then kmul 1 kid X_matrix else kid)).
  assert (T : keq (S n) (uop (S n) vals (plain gX n :: hadamards (S n))) (tensor_product (S n) Ms)).
  { change (plain gX n :: hadamards (S n)) with (map (plain gX) [n] ++ hadamards (S n)). eapply keq_trans; [apply uop_app|]. eapply keq_trans; [|apply (tensor_mul (S n) (fun _ => H_matrix))].
    apply kmul_ext; [apply hadamards_uop|]. apply (layer_uop (S n) vals gX X_matrix [n] (mk_X vals)); [repeat constructor|repeat constructor; simpl; tauto]. }
  apply (anti_ext _ _ (fun x => tensor_product (S n) Ms x (repeat 0 (S n)))).
  { intros x Hx. rewrite <- tensor_ket by (assumption || apply zeros_bits). symmetry. apply apply_kernel_ext; [exact T|intros ? _; reflexivity|exact Hx]. }
  intros x Hx. pose proof (bitstrings_length _ x Hx) as L. unfold tensor_product. rewrite !(cprod_split n _ (seq 0 (S n))) by (try apply seq_NoDup; apply in_seq; lia).
  replace (cprod (remove Nat.eq_dec n (seq 0 (S n))) (fun q => Ms q [nth q (overwrite x [n] [1 - nth n x 0]) 0] [nth q (repeat 0 (S n)) 0])) with
    (cprod (remove Nat.eq_dec n (seq 0 (S n))) (fun q => Ms q [nth q x 0] [nth q (repeat 0 (S n)) 0])).
  2:{ apply cprod_ext. intros q I. apply in_remove in I as [_ D]. rewrite nth_overwrite_notin by (intros [E|[]]; congruence). reflexivity. }
  cbn [overwrite]. rewrite nth_set_bit_eq by lia. rewrite nth_repeat. unfold Ms. destruct (in_dec Nat.eq_dec n [n]) as [_|N]; [|elim N; left; reflexivity].
  set (r := cprod _ _). clearbody r. unfold H_matrix, Cn. cbv zeta. destruct (bit1 _ x n Hx) as [-> | ->]; unfold kmul, kid; cbn; ring.
Qed.
Lemma bv_ok : forall n vals s, length s = n ->
    Forall (usable (S n) vals) (bernstein_vazirani s) /\ Forall dense_gate (bernstein_vazirani s) /\ Forall noiseless (bernstein_vazirani s).
Proof.
  intros n vals s L. unfold bernstein_vazirani. rewrite L.
  destruct (layer_ok (S n) vals gX X_matrix [n] (mk_X vals)) as (X1 & XD & XN); [repeat constructor|]. apply one_usable in X1. cbn [map] in X1, XD, XN.
  destruct (layer_ok (S n) vals gH H_matrix (seq 0 (S n)) (mk_H vals)) as (H1 & HD & HN); [apply seq_lt; lia|]. apply one_usable in H1. fold (hadamards (S n)) in H1, HD, HN.
  assert (A : Forall (fun q => q < n) (ones s)) by (apply ones_ok; lia).
  assert (O : Forall (usable (S n) vals) (map (fun q => cnot q n) (ones s)) /\ Forall dense_gate (map (fun q => cnot q n) (ones s)) /\ Forall noiseless (map (fun q => cnot q n) (ones s))).
  { repeat split; apply Forall_map; eapply Forall_impl; try exact A; intros q Hq; try reflexivity. cbv beta in Hq. apply cnot_usable; lia. }
  destruct O as (O1 & OD & ON).
  repeat split; (apply Forall_cons; [inversion X1; inversion XD; inversion XN; assumption|]); repeat (apply Forall_app; split); assumption.
Qed.
Lemma bv_HH : keq 1 (kmul 1 (kmul 1 H_matrix kid) (kmul 1 H_matrix kid)) kid.
Proof. entries1; root; fin. Qed.
Lemma bv_HX : keq 1 (kmul 1 (kmul 1 H_matrix kid) (kmul 1 H_matrix (kmul 1 kid X_matrix))) X_matrix.
Proof. entries1; root; fin. Qed.
Lemma bv_HZ : keq 1 (kmul 1 (kmul 1 H_matrix (kmul 1 kid Z_matrix)) (kmul 1 H_matrix kid)) X_matrix.
Proof. entries1; root; fin. Qed.
Lemma c121_bernstein_vazirani : forall w n vals c s, In s (bitstrings n) -> sequence_of c (bernstein_vazirani s) ->
    run w c (SDense (zero_state (S n))) vals = Ok (Some (SDense (product_state (s ++ [1])))).
Proof.
  intros w n vals c s Hs S. pose proof (bitstrings_length n s Hs) as L. destruct (bv_ok n vals s L) as (FU & FD & FN).
  destruct (run_from_ket w _ vals c _ _ S FD FN FU (zeros_bits (1 + n))) as (out & E & So & V). unfold zero_state. change (repeat 0 (1 + n)) with (repeat 0 (Datatypes.S n)) in E, V. rewrite E. do 3 f_equal.
  set (m := Datatypes.S n) in *. assert (Hb : In (s ++ [1]) (bitstrings m)) by (unfold m; replace (Datatypes.S n) with (n + 1) by lia; apply bits_app; [exact Hs|simpl; tauto]).
  change (1 + n) with m in So, V. destruct (c72_product_thm m (s ++ [1]) Hb) as (SP & VK & _). apply (state_ext m); [exact So|exact SP|]. intros x Hx. rewrite (V x Hx), (VK x Hx).
  unfold bernstein_vazirani. rewrite L. fold m. change (plain gX n :: hadamards m ++ map (fun q => cnot q n) (ones s) ++ hadamards m) with ((plain gX n :: hadamards m) ++ (map (fun q => cnot q n) (ones s) ++ hadamards m)).
  set (A := plain gX n :: hadamards m). set (phi := apply_kernel m (uop m vals A) (ket (repeat 0 m))).
  destruct (ones_ok n s) as [OL ON]; [lia|]. assert (OL' : Forall (fun q => q < m) (ones s)) by (eapply Forall_impl; [|exact OL]; intros; unfold m; cbv beta in *; lia).
  transitivity (apply_kernel m (uop m vals (A ++ (map (plain gZ) (ones s) ++ hadamards m))) (ket (repeat 0 m)) x).
  { assert (K : forall B, apply_kernel m (uop m vals (A ++ (B ++ hadamards m))) (ket (repeat 0 m)) x = apply_kernel m (uop m vals (hadamards m)) (apply_kernel m (uop m vals B) phi) x).
    { intro B. transitivity (apply_kernel m (kmul m (kmul m (uop m vals (hadamards m)) (uop m vals B)) (uop m vals A)) (ket (repeat 0 m)) x).
      - apply apply_kernel_ext; [|intros ? _; reflexivity|exact Hx]. eapply keq_trans; [apply uop_app|]. apply kmul_ext; [apply uop_app|apply keq_refl].
      - rewrite (apply_kernel_mul m _ _ _ x Hx). fold phi. apply (apply_kernel_mul m _ _ _ x Hx). }
    rewrite !K. apply apply_kernel_ext; [apply keq_refl| |exact Hx]. apply oracle_is_Z; [eapply Forall_impl; [|exact OL]; intros q Hq; unfold m; cbv beta in *; lia|]. apply bv_minus. }
  set (MX := fun q => if in_dec Nat.eq_dec q [n] then kmul 1 kid X_matrix else kid). set (MZ := fun q => if in_dec Nat.eq_dec q (ones s) then kmul 1 kid Z_matrix else kid).
  assert (T : keq m (uop m vals (A ++ (map (plain gZ) (ones s) ++ hadamards m))) (tensor_product m (fun q => kmul 1 (kmul 1 H_matrix (MZ q)) (kmul 1 H_matrix (MX q))))).
  { eapply keq_trans; [apply uop_app|]. eapply keq_trans; [|apply tensor_mul]. apply kmul_ext.
    - eapply keq_trans; [apply uop_app|]. eapply keq_trans; [|apply (tensor_mul m (fun _ => H_matrix))]. apply kmul_ext; [apply hadamards_uop|]. apply (layer_uop m vals gZ Z_matrix (ones s) (mk_Z vals) OL' ON).
    - unfold A. change (plain gX n :: hadamards m) with (map (plain gX) [n] ++ hadamards m). eapply keq_trans; [apply uop_app|]. eapply keq_trans; [|apply (tensor_mul m (fun _ => H_matrix))].
      apply kmul_ext; [apply hadamards_uop|]. apply (layer_uop m vals gX X_matrix [n] (mk_X vals)); [repeat constructor|repeat constructor; simpl; tauto]. }
  transitivity (tensor_product m (fun q => kmul 1 (kmul 1 H_matrix (MZ q)) (kmul 1 H_matrix (MX q))) x (repeat 0 m)).
  { rewrite <- tensor_ket by (assumption || apply zeros_bits). apply apply_kernel_ext; [exact T|intros ? _; reflexivity|exact Hx]. }
  rewrite <- kid_ket, <- (tensor_kid m x _ Hx Hb). unfold tensor_product. apply cprod_ext. intros q I. apply in_seq in I. rewrite nth_repeat.
  pose proof bv_HH as HH.
  pose proof bv_HX as HX.
  pose proof bv_HZ as HZ.
  assert (Bx : In [nth q x 0] (bitstrings 1)) by (destruct (bit1 m x q Hx) as [-> | ->]; simpl; tauto). assert (B0 : In [0] (bitstrings 1)) by (simpl; tauto).
  unfold MX, MZ. destruct (in_dec Nat.eq_dec q [n]) as [[<-|[]]|NX].
  - destruct (in_dec Nat.eq_dec n (ones s)) as [J|_]; [rewrite Forall_forall in OL; apply OL in J; lia|]. rewrite (HX _ _ Bx B0). rewrite app_nth2, L, Nat.sub_diag by lia. cbn [nth].
    destruct (bit1 m x n Hx) as [-> | ->]; reflexivity.
  - assert (Hq : q < n). { destruct (Nat.eq_dec q n) as [->|]; [elim NX; left; reflexivity|]. unfold m in I. lia. }
    rewrite app_nth1 by lia. pose proof (ones_spec s q) as OS. destruct (in_dec Nat.eq_dec q (ones s)) as [J|J].
    + rewrite (HZ _ _ Bx B0). apply OS in J; [|lia]. rewrite J. destruct (bit1 m x q Hx) as [-> | ->]; reflexivity.
    + rewrite (HH _ _ Bx B0). destruct (bit1 n s q Hs) as [->|Q]; [reflexivity|]. elim J. apply OS; [lia|exact Q].
Qed.
