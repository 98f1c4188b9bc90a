(** * The ansatz helper, controls, supports, calls without a state (C66-C71) *)
From Coq Require Import String List Arith Bool Reals Lia Lra Sorted Permutation.
From Verif Require Import Cplx Py PyFacts Ndarray NdFacts OperatorUtils ApplyOperator Sparse Matrices Noise Gates Apply Composite Conversion Spec SpecFacts GateSpec PropSpec ExpectSpec StructSpec
  ApplyFacts GateFacts ApplyThm TensorFacts TensorThm GateThm SampleThm ExpectThm2 GpsrThm3 StructThm.
Import ListNotations.
Local Open Scope nat_scope.

(** ** C66, C67 *)
Lemma nth_flat_map : forall {A B} (f : A -> list B) m l d i j, (forall x, In x l -> length (f x) = m) -> i < length l -> j < m ->
    nth_error (flat_map f l) (i * m + j) = nth_error (f (nth i l d)) j.
Proof.
  intros A B f m; induction l as [|x l IH]; intros d i j H Hi Hj; [simpl in Hi; lia|]. cbn [flat_map]. destruct i as [|i].
  - cbn [Nat.mul Nat.add nth]. rewrite nth_error_app1; [reflexivity|]. rewrite H by (left; reflexivity). exact Hj.
  - rewrite nth_error_app2; rewrite H by (left; reflexivity); [|simpl; lia]. cbn [nth]. replace (S i * m + j - m) with (i * m + j) by (simpl; lia).
    apply IH; [intros y Hy; apply H; right; exact Hy|simpl in Hi; lia|exact Hj].
Qed.
Lemma length_flat_map_const : forall {A B} (f : A -> list B) m l, (forall x, In x l -> length (f x) = m) -> length (flat_map f l) = length l * m.
Proof.
  intros A B f m; induction l as [|x l IH]; intro H; [reflexivity|]. cbn [flat_map length]. rewrite app_length, H by (left; reflexivity).
  rewrite IH by (intros y Hy; apply H; right; exact Hy). simpl; lia.
Qed.
Lemma rotations_length : forall fns prefix uuid k0 q, length (hea_rotations fns prefix uuid k0 q) = length fns.
Proof. intros; unfold hea_rotations; rewrite map_length, combine_length, seq_length; lia. Qed.
Lemma ring_length : forall n, length (hea_ring n) = n.
Proof. intro n; unfold hea_ring; rewrite map_length, seq_length; reflexivity. Qed.
Lemma nth_error_rotations : forall fns prefix uuid k0 q j d, j < length fns ->
    nth_error (hea_rotations fns prefix uuid k0 q) j = Some (nth j fns d (PName (prefix ++ uuid (k0 + j))) (TInt q) no_control None false).
Proof.
  intros fns prefix uuid k0 q j d Hj. unfold hea_rotations. rewrite nth_error_map.
  assert (E : nth_error (combine (seq 0 (length fns)) fns) j = Some (j, nth j fns d)).
  { rewrite (nth_error_nth' _ (0, d)) by (rewrite combine_length, seq_length; lia). rewrite combine_nth by (rewrite seq_length; reflexivity). rewrite seq_nth by exact Hj. reflexivity. }
  unfold rot_fn in *. rewrite E. reflexivity.
Qed.
Lemma nth_error_ring : forall n j, j < n -> nth_error (hea_ring n) j = Some (NOT (TInt ((j + 1) mod n)) (IInt j) None false).
Proof.
  intros n j Hj. unfold hea_ring. rewrite nth_error_map, (nth_error_nth' _ 0) by (rewrite seq_length; exact Hj). rewrite seq_nth by exact Hj.
  cbn [option_map Nat.add]. rewrite (Nat.mod_small j n) by exact Hj. reflexivity.
Qed.
Lemma c66_length : forall n L fns prefix uuid, length (hea n L fns prefix uuid) = L * n * (length fns + n).
Proof.
  intros n L fns prefix uuid. unfold hea. rewrite (length_flat_map_const _ (n * (length fns + n))).
  - rewrite seq_length; lia.
  - intros l _. rewrite (length_flat_map_const _ (length fns + n)); [rewrite seq_length; lia|]. intros i _. rewrite app_length, rotations_length, ring_length; reflexivity.
Qed.
Lemma hea_nth : forall n L fns prefix uuid l i j, l < L -> i < n -> j < length fns + n ->
    nth_error (hea n L fns prefix uuid) ((l * n + i) * (length fns + n) + j) =
    nth_error (hea_rotations fns prefix uuid ((l * n + i) * length fns) i ++ hea_ring n) j.
Proof.
  intros n L fns prefix uuid l i j Hl Hi Hj. unfold hea.
  replace ((l * n + i) * (length fns + n) + j) with (l * (n * (length fns + n)) + (i * (length fns + n) + j)) by lia.
  rewrite (nth_flat_map _ (n * (length fns + n)) _ 0); [|intros x _; rewrite (length_flat_map_const _ (length fns + n)); [rewrite seq_length; lia|]; intros; rewrite app_length, rotations_length, ring_length; reflexivity|rewrite seq_length; exact Hl|nia].
  rewrite (nth_flat_map _ (length fns + n) _ 0); [|intros; rewrite app_length, rotations_length, ring_length; reflexivity|rewrite seq_length; exact Hi|exact Hj].
  rewrite !seq_nth by assumption. reflexivity.
Qed.
Lemma c66_blocks_thm : forall n L fns prefix uuid,
    length (hea n L fns prefix uuid) = L * n * (length fns + n) /\
    forall l i, l < L -> i < n ->
      (forall j d, j < length fns -> nth_error (hea n L fns prefix uuid) ((l * n + i) * (length fns + n) + j) =
          Some (nth j fns d (PName (prefix ++ uuid ((l * n + i) * length fns + j))) (TInt i) no_control None false)) /\
      (forall j, j < n -> nth_error (hea n L fns prefix uuid) ((l * n + i) * (length fns + n) + length fns + j) =
          Some (NOT (TInt ((j + 1) mod n)) (IInt j) None false)).
Proof.
  intros n L fns prefix uuid. split; [apply c66_length|]. intros l i Hl Hi. split.
  - intros j d Hj. rewrite hea_nth by lia. rewrite nth_error_app1 by (rewrite rotations_length; exact Hj). apply nth_error_rotations; exact Hj.
  - intros j Hj. rewrite <- Nat.add_assoc, hea_nth by lia. rewrite nth_error_app2 by (rewrite rotations_length; lia). rewrite rotations_length.
    replace (length fns + j - length fns) with j by lia. apply nth_error_ring; exact Hj.
Qed.

Lemma flat_map_seq_blocks : forall {A} (f : nat -> A) k n c, flat_map (fun i => map f (seq (c + i * k) k)) (seq 0 n) = map f (seq c (n * k)).
Proof.
  intros A f k n c. induction n as [|n IH]; [reflexivity|]. rewrite seq_S, flat_map_app, IH. cbn [flat_map Nat.add]. rewrite app_nil_r, <- map_app, <- seq_app. f_equal. f_equal. simpl; lia.
Qed.
Lemma flat_map_map' : forall {A B D} (f : A -> B) (g : B -> list D) l, flat_map g (map f l) = flat_map (fun x => g (f x)) l.
Proof. intros A B D f g l; induction l as [|x l IH]; simpl; [reflexivity|rewrite IH; reflexivity]. Qed.
Lemma flat_map_flat_map' : forall {A B D} (f : A -> list B) (g : B -> list D) l, flat_map g (flat_map f l) = flat_map (fun x => flat_map g (f x)) l.
Proof. intros A B D f g l; induction l as [|x l IH]; simpl; [reflexivity|rewrite flat_map_app, IH; reflexivity]. Qed.
Lemma rotations_names : forall str_of fns prefix uuid k0 q, Forall (fun f => In f [RX; RY; RZ; PHASE]) fns ->
    flat_map (fun g => gate_param_str str_of (OGate g)) (hea_rotations fns prefix uuid k0 q) = map (fun m => (prefix ++ uuid m)%string) (seq k0 (length fns)).
Proof.
  intros str_of fns prefix uuid k0 q F. unfold hea_rotations. rewrite flat_map_map'.
  assert (G : forall l s, Forall (fun f => In f [RX; RY; RZ; PHASE]) l ->
      flat_map (fun x : nat * rot_fn => gate_param_str str_of (OGate (snd x (PName (prefix ++ uuid (k0 + fst x))) (TInt q) no_control None false))) (combine (seq s (length l)) l) =
      map (fun m => (prefix ++ uuid m)%string) (seq (k0 + s) (length l))).
  { induction l as [|f l IH]; intros s Fl; [reflexivity|]. inversion Fl as [|? ? If Fl']; subst. cbn [length seq combine flat_map map fst snd].
    rewrite IH by exact Fl'. rewrite <- plus_n_Sm. simpl in If; destruct If as [<-|[<-|[<-|[<-|[]]]]]; reflexivity. }
  rewrite G by exact F. rewrite Nat.add_0_r. reflexivity.
Qed.
Lemma ring_names : forall str_of n, flat_map (fun g => gate_param_str str_of (OGate g)) (hea_ring n) = [].
Proof. intros str_of n. unfold hea_ring. rewrite flat_map_map'. induction (seq 0 n) as [|x l IH]; [reflexivity|]. cbn [flat_map]. rewrite IH. reflexivity. Qed.
Lemma hea_names : forall str_of n L fns prefix uuid, Forall (fun f => In f [RX; RY; RZ; PHASE]) fns ->
    flat_map (fun g => gate_param_str str_of (OGate g)) (hea n L fns prefix uuid) = map (fun m => (prefix ++ uuid m)%string) (seq 0 (L * n * length fns)).
Proof.
  intros str_of n L fns prefix uuid F. unfold hea. rewrite flat_map_flat_map'.
  rewrite <- Nat.mul_assoc, <- (flat_map_seq_blocks (fun m => (prefix ++ uuid m)%string) (n * length fns) L 0). apply flat_map_ext; intro l.
  rewrite flat_map_flat_map', <- flat_map_seq_blocks. apply flat_map_ext; intro i. rewrite flat_map_app, rotations_names, ring_names, app_nil_r by exact F.
  f_equal. f_equal. unfold rot_fn; ring.
Qed.
Lemma dedup_str_id : forall l, NoDup l -> dedup_str l = l.
Proof.
  induction l as [|x l IH]; intro H; [reflexivity|]. inversion H as [|? ? Nx Nl]; subst. cbn [dedup_str]. destruct (existsb (String.eqb x) l) eqn:E.
  - apply existsb_exists in E. destruct E as (y & Iy & Q). apply String.eqb_eq in Q. subst; contradiction.
  - rewrite IH by exact Nl. reflexivity.
Qed.
Lemma append_inj : forall p a b : string, (p ++ a)%string = (p ++ b)%string -> a = b.
Proof. induction p as [|c p IH]; intros a b E; [exact E|]. simpl in E. injection E as E. apply IH, E. Qed.
Lemma nodup_map_inj : forall {A B} (f : A -> B) l, (forall x y, f x = f y -> x = y) -> NoDup l -> NoDup (map f l).
Proof. intros A B f l H N; induction N as [|x l Nx N IH]; [constructor|]. cbn [map]. constructor; [|exact IH]. intro I. apply in_map_iff in I. destruct I as (y & E & Iy). apply H in E. subst; contradiction. Qed.
Lemma c66_names_thm : forall str_of n L fns prefix uuid, Forall (fun f => In f [RX; RY; RZ; PHASE]) fns -> (forall i j, uuid i = uuid j -> i = j) ->
    n_vparams str_of (QuantumCircuit n (AList (map OGate (hea n L fns prefix uuid))) []) = L * n * length fns.
Proof.
  intros str_of n L fns prefix uuid F U. unfold n_vparams, QuantumCircuit, vparams, param_names, list_of. rewrite iter_gates by discriminate. cbn [all_gates].
  assert (E : flat_map all_gates (map OGate (hea n L fns prefix uuid)) = hea n L fns prefix uuid).
  { rewrite flat_map_map'. cbn [all_gates]. induction (hea n L fns prefix uuid) as [|g l IH]; [reflexivity|]. cbn [flat_map app]. rewrite IH. reflexivity. }
  rewrite E. rewrite flat_map_map', hea_names by exact F. rewrite dedup_str_id.
  - assert (FT : forall l : list string, filter (fun n0 => negb (existsb (String.eqb n0) [])) l = l) by (induction l as [|x l IH]; [reflexivity|simpl; f_equal; exact IH]).
    rewrite FT, map_length, seq_length. reflexivity.
  - apply nodup_map_inj; [|apply seq_NoDup]. intros x y E2. apply U, (append_inj prefix), E2.
Qed.
Lemma c66_usable_thm : forall n L fns prefix uuid vals, 2 <= n -> Forall (fun f => In f [RX; RY; RZ; PHASE]) fns ->
    (forall m, exists x, lookup vals (prefix ++ uuid m) = Ok (VNum x)) -> Forall (usable n vals) (hea n L fns prefix uuid).
Proof.
  intros n L fns prefix uuid vals Hn F V. apply Forall_forall. intros g I. unfold hea in I. apply in_flat_map in I. destruct I as (l & _ & I).
  apply in_flat_map in I. destruct I as (i & Ii & I). apply in_seq in Ii. apply in_app_or in I. destruct I as [I|I].
  - unfold hea_rotations in I. apply in_map_iff in I. destruct I as ([k f] & <- & I). apply in_combine_r in I. cbn [fst snd].
    rewrite Forall_forall in F. apply (parametric_usable n vals f _ i no_control []); [exact (F f I)|exact (V _)|apply cq_default|]. split; [repeat constructor; simpl; tauto|repeat constructor; lia].
  - unfold hea_ring in I. apply in_map_iff in I. destruct I as (j & <- & I). apply in_seq in I. rewrite (Nat.mod_small j) by lia.
    apply (fixed_usable n vals NOT _ (IInt j) [j]); [right; left; reflexivity|apply (cq_ints [j])|].
    assert (M : (j + 1) mod n < n) by (apply Nat.mod_upper_bound; lia).
    assert (D : j <> (j + 1) mod n). { destruct (Nat.eq_dec (j + 1) n) as [Q|Q]; [rewrite Q, Nat.mod_same by lia; lia|rewrite Nat.mod_small by lia; lia]. }
    split; [|repeat constructor; simpl; lia]. constructor; [simpl; intros [E|[]]; congruence|]. repeat constructor; simpl; tauto.
Qed.

(** one qubit *)
Lemma c67_refuted_thm : forall w L fns prefix uuid vals psi, 0 < L -> is_state 1 psi ->
    exists g e, In g (hea 1 L fns prefix uuid) /\ apply_gates w (SDense psi) (GOne g) vals UNITARY false true = Err e.
Proof.
  intros w L fns prefix uuid vals psi HL HS. exists (NOT (TInt 0) (IInt 0) None false).
  destruct (c02_raises 1 1 psi (matrix [[C0; C1]; [C1; C0]]) (CTup [QInt 0]) [0] [0] HS) as (e & E); [split; reflexivity|apply (cq_ints [0])| |].
  - left. intro H. inversion H as [|? ? N _]; subst. apply N; left; reflexivity.
  - exists e. split.
    + unfold hea. apply in_flat_map. exists 0. split; [apply in_seq; lia|]. cbn [seq flat_map]. rewrite app_nil_r. apply in_or_app. right. left. reflexivity.
    + change (bind (bind (apply_operator psi (matrix [[C0; C1]; [C1; C0]]) [0] (CTup [QInt 0])) (fun r => Ok (SDense r))) (fun s => Ok s) = Err e). rewrite E. reflexivity.
Qed.
Lemma c67_partial_thm : forall L fns prefix uuid vals g, Forall (fun f => In f [RX; RY; RZ; PHASE]) fns ->
    (forall m, exists x, lookup vals (prefix ++ uuid m) = Ok (VNum x)) -> In g (hea 1 L fns prefix uuid) -> parametric g -> usable 1 vals g.
Proof.
  intros L fns prefix uuid vals g F V I P. unfold hea in I. apply in_flat_map in I. destruct I as (l & _ & I).
  apply in_flat_map in I. destruct I as (i & Ii & I). apply in_seq in Ii. apply in_app_or in I. destruct I as [I|I].
  - unfold hea_rotations in I. apply in_map_iff in I. destruct I as ([k f] & <- & I). apply in_combine_r in I. cbn [fst snd].
    rewrite Forall_forall in F. apply (parametric_usable 1 vals f _ i no_control []); [exact (F f I)|exact (V _)|apply cq_default|]. split; [apply NoDup_cons; [simpl; tauto|apply NoDup_nil]|apply Forall_cons; [lia|apply Forall_nil]].
  - unfold hea_ring in I. apply in_map_iff in I. destruct I as (j & <- & I). destruct P as [P|P]; discriminate P.
Qed.

(** ** C68 *)
Lemma qidx_as_int : forall l, mapM qidx_nat (map as_int l) = mapM qidx_nat l.
Proof. induction l as [|q l IH]; [reflexivity|]. cbn [map mapM]. rewrite IH. destruct q; reflexivity. Qed.
Lemma controlled_as_int : forall l, existsb is_controlled_idx l = true -> existsb is_controlled_idx (map as_int l) = true.
Proof. intros l H. apply existsb_exists in H. destruct H as (q & I & E). apply existsb_exists. exists (as_int q). split; [apply in_map; exact I|]. destruct q; [reflexivity|discriminate|discriminate]. Qed.
Lemma prepare_as_int : forall o t l, existsb is_controlled_idx l = true -> prepare_operator o t (CTup (map as_int l)) = prepare_operator o t (CTup l).
Proof.
  intros o t l H. unfold prepare_operator, is_controlled, clen, axes_of. rewrite H, (controlled_as_int l H), map_length, qidx_as_int. reflexivity.
Qed.
Lemma operator_of_control : forall w ot g c vals, operator_of w ot (with_control c g) vals = operator_of w ot g vals.
Proof. intros w ot [k nm t c' ns sp p s] c vals. destruct ot, k; reflexivity. Qed.
Lemma b_prepare_as_int : forall b o t l, existsb is_controlled_idx l = true -> b_apply_operator b o t (CTup (map as_int l)) = b_apply_operator b o t (CTup l).
Proof.
  intros b o t l H. unfold b_apply_operator. cbn [is_controlled clen axes_of]. rewrite H, (controlled_as_int l H), map_length, qidx_as_int. reflexivity.
Qed.
Lemma apply_control : forall w s g c c' vals ot gr mg,
    (forall s' m, apply_operator_state w s' m (target g) c = apply_operator_state w s' m (target g) c') ->
    apply_gates w s (GOne (with_control c g)) vals ot gr mg = apply_gates w s (GOne (with_control c' g)) vals ot gr mg.
Proof.
  intros w s g c c' vals ot gr mg H. unfold apply_gates, prepare_sequence_reduce. rewrite !operator_of_control. cbn [with_control target control noise].
  destruct (operator_of w ot g vals) as [m|e]; [|reflexivity]. cbn [bind fst snd combine].
  assert (N : forall s' x, foldM (fun s0 (pn : placed * option (list noise_inst)) => let '(o, t, cc, n) := pn in apply_operator_with_noise w s0 o t cc n) [((m, target g, c), x)] s' =
      foldM (fun s0 (pn : placed * option (list noise_inst)) => let '(o, t, cc, n) := pn in apply_operator_with_noise w s0 o t cc n) [((m, target g, c'), x)] s').
  { intros s' x. cbn [foldM]. unfold apply_operator_with_noise. rewrite H. reflexivity. }
  assert (M : forall s', foldM (fun s0 (p : placed) => let '(o, t, cc) := p in apply_operator_state w s0 o t cc) [(m, target g, c)] s' =
      foldM (fun s0 (p : placed) => let '(o, t, cc) := p in apply_operator_state w s0 o t cc) [(m, target g, c')] s').
  { intros s'. cbn [foldM]. rewrite H. reflexivity. }
  destruct s as [a|b|a]; [| |apply N]; (destruct (negb (no_noise [noise g])); [|apply M]); [|reflexivity].
  destruct (density_mat a) as [r|e]; [apply N|reflexivity].
Qed.
Lemma with_control_same : forall g, with_control (control g) g = g.
Proof. destruct g; reflexivity. Qed.
Lemma c68_partial_thm : forall w s g l vals ot gr mg, control g = CTup l -> (exists k, In (QInt k) l) ->
    apply_gates w s (GOne g) vals ot gr mg = apply_gates w s (GOne (with_int_controls g)) vals ot gr mg /\
    gate_support g = gate_support (with_int_controls g).
Proof.
  intros w s g l vals ot gr mg C (k & I).
  assert (B : existsb is_controlled_idx l = true) by (apply existsb_exists; exists (QInt k); split; [exact I|reflexivity]).
  assert (E : with_int_controls g = with_control (CTup (map as_int l)) g) by (unfold with_int_controls; rewrite C; reflexivity). rewrite E. split.
  - rewrite <- (with_control_same g) at 1. rewrite C. apply apply_control. intros s' m. unfold apply_operator_state, apply_operator, apply_operator_dm.
    destruct s', m; try reflexivity; try (rewrite prepare_as_int by exact B; reflexivity). rewrite b_prepare_as_int by exact B. reflexivity.
  - unfold gate_support. cbn [with_control control target]. rewrite C. cbn [is_controlled axes_of]. rewrite B, (controlled_as_int l B), qidx_as_int. reflexivity.
Qed.
(** a control given only by np.int64 is ignored *)
Lemma c68_ignored : forall w s g l vals ot gr mg, control g = CTup (map QNp l) ->
    apply_gates w s (GOne g) vals ot gr mg = apply_gates w s (GOne (with_control CNone g)) vals ot gr mg.
Proof.
  intros w s g l vals ot gr mg C. rewrite <- (with_control_same g) at 1. rewrite C. apply apply_control. intros s' m.
  assert (B : is_controlled (CTup (map QNp l)) = false) by (clear; cbn [is_controlled]; induction l as [|x l IH]; [reflexivity|exact IH]).
  unfold apply_operator_state, apply_operator, apply_operator_dm, prepare_operator, b_apply_operator. rewrite B. destruct s', m; reflexivity.
Qed.
Lemma c68_refuted_thm : forall w vals, exists r1 r2,
    apply_gates w (SDense (zero_state 2)) (GOne (gX (TInt 1) (INp 0) None false)) vals UNITARY false true = Ok (SDense r1) /\
    apply_gates w (SDense (zero_state 2)) (GOne (gX (TInt 1) (IInt 0) None false)) vals UNITARY false true = Ok (SDense r2) /\
    amp r1 [0; 1] = C1 /\ amp r2 [0; 1] = C0.
Proof.
  intros w vals. do 2 eexists. split; [ev; reflexivity|]. split; [ev; reflexivity|]. split; ev; f_equal; ring.
Qed.

(** ** C69 *)
Lemma c69_partial_thm : forall g q cs, target g = [q] -> control_qubits (control g) cs ->
    (control g = CNone \/ exists k, cs = [k] /\ k <> q) ->
    exists s, gate_support g = Ok s /\ n_qubits g = length s.
Proof.
  intros g q cs T C [E|(k & -> & D)].
  - exists [q]. unfold gate_support, n_qubits. rewrite E, T. split; reflexivity.
  - inversion C as [A|A|cs' A B]. subst cs'. unfold gate_support, n_qubits. rewrite <- A. cbn [is_controlled map existsb is_controlled_idx axes_of mapM qidx_nat bind].
    rewrite T. eexists. split; [reflexivity|]. rewrite sorted_length. cbn [app]. rewrite dedup_id; [reflexivity|].
    constructor; [simpl; intros [Q|[]]; congruence|]. constructor; [simpl; tauto|constructor].
Qed.
Lemma c69_refuted_thm : forall q a b c d ns sp,
    (n_qubits (gX (TInt q) no_control ns sp) = 2 /\ gate_support (gX (TInt q) no_control ns sp) = Ok [q]) /\
    (a <> b -> b <> c -> a <> c -> n_qubits (gX (TInt c) (ITup [QInt a; QInt b]) ns sp) = 2 /\
       exists s, gate_support (gX (TInt c) (ITup [QInt a; QInt b]) ns sp) = Ok s /\ length s = 3) /\
    (c <> d -> n_qubits (SWAP (TTup [c; d]) INone ns sp) = 1 /\ exists s, gate_support (SWAP (TTup [c; d]) INone ns sp) = Ok s /\ length s = 2).
Proof.
  intros q a b c d ns sp. split; [split; reflexivity|]. split.
  - intros D1 D2 D3. split; [reflexivity|]. exists (sorted (dedup [c; a; b])). split; [reflexivity|]. rewrite sorted_length, dedup_id; [reflexivity|].
    constructor; [simpl; intros [Q|[Q|[]]]; congruence|]. constructor; [simpl; intros [Q|[]]; congruence|]. constructor; [simpl; tauto|constructor].
  - intros D. split; [reflexivity|]. exists (sorted (dedup [c; d])). split; [reflexivity|]. rewrite sorted_length, dedup_id; [reflexivity|].
    constructor; [simpl; intros [Q|[]]; congruence|]. constructor; [simpl; tauto|constructor].
Qed.

(** ** C70 *)
Lemma control_qubits_fun : forall c a b, control_qubits c a -> control_qubits c b -> a = b.
Proof.
  assert (F : forall cs cs', map QInt cs = map QInt cs' -> cs = cs').
  { induction cs as [|x cs IH]; intros [|y cs'] Q; try discriminate; [reflexivity|]. injection Q as -> Q. f_equal. apply IH. exact Q. }
  intros c a b H1 H2. destruct (controlled_cases _ _ H1) as [[N ->]|[Y E]], (controlled_cases _ _ H2) as [[N' ->]|[Y' E']]; try congruence.
  apply F. congruence.
Qed.
Lemma sorted_strict : forall l, StronglySorted lt (sorted (dedup l)).
Proof.
  intro l. pose proof (sorted_sorted (dedup l)) as S. pose proof (sorted_NoDup _ (dedup_NoDup l)) as N. revert S N. generalize (sorted (dedup l)) as m. clear l.
  induction m as [|x m IH]; intros S N; [constructor|]. inversion S as [|? ? S' F]; subst. inversion N as [|? ? Nx N']; subst. constructor; [apply IH; assumption|].
  rewrite Forall_forall in *. intros y Iy. specialize (F y Iy). assert (x <> y) by (intro; subst; contradiction). lia.
Qed.
Lemma gate_support_exact : forall g, int_controls g -> exists s, gate_support g = Ok s /\ StronglySorted lt s /\ forall q, In q s <-> occupies g q.
Proof.
  intros g (cs & C).
  assert (E : exists t, gate_support g = Ok (sorted (dedup t)) /\ forall q, In q t <-> In q (cs ++ target g)).
  { unfold gate_support. inversion C as [A| A |cs' A B]; subst.
    - exists (target g). split; [reflexivity|reflexivity].
    - exists (target g). split; [reflexivity|reflexivity].
    - cbn [is_controlled axes_of]. assert (M : mapM qidx_nat (map QInt cs) = Ok cs) by (clear; induction cs as [|x l IH]; [reflexivity|cbn [map mapM qidx_nat bind]; rewrite IH; reflexivity]).
      rewrite M. destruct cs as [|x cs].
      + exists (target g). split; reflexivity.
      + cbn [map existsb is_controlled_idx orb bind]. eexists. split; [reflexivity|]. intro q. rewrite !in_app_iff. tauto. }
  destruct E as (t & E & T). exists (sorted (dedup t)). split; [exact E|]. split; [apply sorted_strict|]. intro q. rewrite sorted_In, dedup_In, T. split.
  - intro I. exists cs. split; assumption.
  - intros (cs' & C' & I). rewrite (control_qubits_fun _ _ _ C C'). exact I.
Qed.
Lemma support_exact : forall w o, set_order (set_iter w) -> Forall int_controls (all_gates o) ->
    exists s, support w o = Ok s /\ NoDup s /\ forall q, In q s <-> exists g, In g (all_gates o) /\ occupies g q.
Proof.
  intros w o SO. induction o as [g|l IH|l p IH|l IH|l IH|n l fp IH] using oper_ind'; intro H; cbn [support all_gates] in *.
  1: { destruct (gate_support_exact g) as (s & E & S & X); [exact (Forall_inv H)|]. exists s. split; [exact E|]. split; [apply StronglySorted_lt_le in S; tauto|].
       intro q. rewrite X. split; [intro O; exists g; split; [left; reflexivity|exact O]|intros (g' & [<-|[]] & O); exact O]. }
  all: assert (E : exists ss, mapM (support w) l = Ok ss /\ forall q, In q (List.concat ss) <-> exists g, In g (flat_map all_gates l) /\ occupies g q) by
    (clear -IH H; induction IH as [|x l Hx F IHl];
     [exists []; split; [reflexivity|]; intro q; split; [intros []|intros (g & [] & _)]|];
     cbn [flat_map] in H; apply Forall_app in H; destruct H as [H1 H2]; destruct (Hx H1) as (s & E & _ & X); destruct (IHl H2) as (ss & E' & X');
     exists (s :: ss); split; [cbn [mapM]; rewrite E; cbn [bind]; rewrite E'; reflexivity|];
     intro q; cbn [List.concat flat_map]; rewrite in_app_iff, X, X'; split;
     [intros [(g & I & O)|(g & I & O)]; exists g; (split; [apply in_or_app; tauto|exact O])
     |intros (g & I & O); apply in_app_or in I; destruct I as [I|I]; [left|right]; exists g; (split; assumption)]);
    destruct E as (ss & E & X); exists (set_iter w (List.concat ss)); rewrite E; split; [reflexivity|]; destruct (SO (List.concat ss)) as [N S]; split; [exact N|];
    intro q; rewrite S; apply X.
Qed.

(** ** C71 *)
Lemma strict_seq : forall s k, StronglySorted lt s -> (forall q, In q s <-> q < k) -> length s = k.
Proof.
  intros s k S X. assert (E : s = seq 0 k); [|rewrite E; apply seq_length]. apply sorted_unique.
  - apply StronglySorted_lt_le in S; tauto.
  - assert (Q : StronglySorted lt (seq 0 k)); [|apply StronglySorted_lt_le in Q; tauto]. clear. generalize 0 as a. induction k as [|k IH]; intro a; [constructor|]. cbn [seq]. constructor; [apply IH|].
    apply Forall_forall. intros x I. apply in_seq in I. lia.
  - apply NoDup_Permutation; [apply StronglySorted_lt_le in S; tauto|apply seq_NoDup|]. intro q. rewrite X, in_seq. lia.
Qed.
Lemma c71_partial_thm : forall w vals k o, starts k o -> call w vals o None = call w vals o (Some (SDense (zero_state k))).
Proof.
  intros w vals k. induction o as [g|l IH|l p IH|l IH|l IH|n l fp IH] using oper_ind'; intro S; inversion S as [? C O|? ? S1|? ? ? S1|? S1|? ? ? ? S1]; subst; cbn [call].
  - destruct (gate_support_exact g C) as (s & E & SS & X). rewrite E. cbn [bind]. rewrite (strict_seq s k SS); [reflexivity|]. intro q. rewrite X. apply O.
  - pose proof (Forall_inv IH S1) as E. cbn [foldM]. rewrite E. reflexivity.
  - pose proof (Forall_inv IH S1) as E. cbn [foldM]. rewrite E. reflexivity.
  - assert (E : forall o, In o l -> call w vals o None = call w vals o (Some (SDense (zero_state k)))).
    { rewrite Forall_forall in IH, S1. intros o I. apply IH; [exact I|apply S1; exact I]. }
    destruct l as [|o l]; [reflexivity|]. cbn [reduce_map]. rewrite (E o) by (left; reflexivity). destruct (call w vals o (Some (SDense (zero_state k)))) as [r|]; [|reflexivity]. cbn [bind].
    assert (E' : forall o, In o l -> call w vals o None = call w vals o (Some (SDense (zero_state k)))) by (intros o' I; apply E; right; exact I). clear -E'. revert r.
    induction l as [|x l IH]; intro r; [reflexivity|]. cbn [foldM]. rewrite (E' x) by (left; reflexivity).
    destruct (let! c := call w vals x (Some (SDense (zero_state k))) in add_state r c) as [r'|]; [|reflexivity]. cbn [bind]. apply IH. intros o I; apply E'; right; exact I.
  - pose proof (Forall_inv IH S1) as E. cbn [foldM]. rewrite E. reflexivity.
Qed.
Lemma zero_state_is_state : forall n, is_state n (zero_state n).
Proof.
  intro n. unfold zero_state, product_state, set_at. split; [cbn [shape build zeros]; rewrite repeat_length; reflexivity|apply wf_build].
Qed.
Lemma c71_refuted_thm : forall w vals q, 0 < q -> exists e,
    call w vals (OGate (gX (TInt q) no_control None false)) None = Err e /\
    forall n, q < n -> exists r, call w vals (OGate (gX (TInt q) no_control None false)) (Some (SDense (zero_state n))) = Ok (Some (SDense r)).
Proof.
  intros w vals q Hq.
  destruct (c02_raises 1 1 (zero_state 1) (matrix [[C0; C1]; [C1; C0]]) (CTup [QNone]) [] [q]) as (e & E); [apply zero_state_is_state|split; reflexivity|apply cq_default|right; left; exists q; split; [left; reflexivity|lia]|].
  exists e. split.
  - change (bind (bind (bind (apply_operator (zero_state 1) (matrix [[C0; C1]; [C1; C0]]) [q] (CTup [QNone])) (fun r => Ok (SDense r))) (fun s => Ok s)) (fun r => Ok (Some r)) = Err e). rewrite E. reflexivity.
  - intros n Hn. destruct (usable_applies w n vals (gX (TInt q) no_control None false) (zero_state n)) as (out & Eo & _).
    + apply (fixed_usable n vals gX q no_control []); [right; left; reflexivity|apply cq_default|]. split; [apply NoDup_cons; [simpl; tauto|apply NoDup_nil]|apply Forall_cons; [exact Hn|apply Forall_nil]].
    + reflexivity. + reflexivity. + apply zero_state_is_state.
    + exists out. cbn [call bind]. rewrite Eo. reflexivity.
Qed.
