(** * C117: qubits that never interact are independent.

    The vocabulary is in Spec.v, GateSpec.v, PhysSpec.v, ExpectSpec.v, GpsrSpec.v, HeisSpec.v and IndepSpec.v.  Every theorem is followed by an example that
    meets its hypotheses. *)
From Coq Require Import String List Arith Bool ZArith Reals Lia Lra.
From Verif Require Import Cplx Py Ndarray OperatorUtils ApplyOperator Sparse Matrices Noise Gates Apply Composite Conversion Shots Gpsr Api
  Spec GateSpec PropSpec NoiseSpec SampleSpec ExpectSpec GpsrSpec StructSpec PhysSpec CtorSpec PauliSpec HeisSpec IndepSpec SpecFacts ExpectThm2 GpsrFacts StructThm3 PauliThm IndepThm Examples.
Import ListNotations.
Local Open Scope nat_scope.

(** the expectation of a product of operations on the two parts is the product of their expectations *)
Theorem C117_expectations_multiply : forall w n vals reg c gs x st a b A B AB mode key, set_order (set_iter w) -> flat_values vals -> runnable n vals c gs -> prepared n x st -> never_interact reg gs ->
    measured_inside reg a -> measured_outside reg b -> hermitian n A -> readable w n vals st gs [a] A -> readable w n vals st gs [b] B -> readable w n vals st gs [OpSequence [a; b]] AB -> exact_mode mode ->
    exists va vb, expectation w st c [[a]; [b]; [OpSequence [a; b]]] vals mode 0 key = Ok [va; vb; (va * vb)%R].
Proof. exact c117_product. Qed.
Print Assumptions C117_expectations_multiply.
(** qubits 0 and 2 are entangled by a noisy CNOT, and so are qubits 1 and 3; the gates of the two parts alternate *)
Definition ind_reg (q : nat) : bool := Nat.even q.
Definition ind_gates : list gate :=
  [RY (PName "a") (TInt 0) no_control None false; plain gH 1; gX (TInt 2) (IInt 0) (Some [mkNoise BITFLIP (PFloat (1 / 4))]) false; gX (TInt 3) (IInt 1) None false].
Definition ind_vals (x : R) : values := [("a", VNum x)]%string.
Example ind_run : forall x, runnable 4 (ind_vals x) (OpSequence (map OGate ind_gates)) ind_gates.
Proof.
  intro x. split; [apply sequence_gates|split; [discriminate|split; [|split; [repeat constructor|]]]].
  - apply Forall_cons; [do 3 eexists; split; [eapply gm_rotation; [reflexivity|reflexivity|reflexivity|eexists; split; [reflexivity|reflexivity]|simpl; tauto]|apply cq_default|reflexivity|apply valid_one; lia]|].
    apply Forall_cons; [do 3 eexists; split; [eapply gm_fixed; simpl; eauto 10|apply cq_default|reflexivity|apply valid_one; lia]|].
    apply Forall_cons; [do 3 eexists; split; [eapply gm_fixed; simpl; eauto 10|apply (cq_ints [0])|reflexivity|ex_side]|].
    apply Forall_cons; [do 3 eexists; split; [eapply gm_fixed; simpl; eauto 10|apply (cq_ints [1])|reflexivity|ex_side]|apply Forall_nil].
  - do 2 (apply Forall_cons; [exact Logic.I|]). apply Forall_cons; [split; [reflexivity|apply Forall_cons; [split; [exact Logic.I|unfold valid_parameter, is_prob; simpl; lra]|apply Forall_nil]]|]. apply Forall_cons; [exact Logic.I|apply Forall_nil].
Qed.
Example ind_parts : never_interact ind_reg ind_gates.
Proof.
  intros g [<-|[<-|[<-|[<-|[]]]]]; [left|right|left|right]; intros q (cs & C & Q); apply ctrl_of_spec in C; subst cs; cbn in Q; repeat destruct Q as [<-|Q]; try reflexivity; destruct Q.
Qed.
Example ind_prepared : prepared 4 [1; 0; 1; 1] (SDense (product_state [1; 0; 1; 1])).
Proof.
  assert (H : In [1; 0; 1; 1] (bitstrings 4)) by (simpl; tauto). destruct (c72_product_thm 4 _ H) as (S & V & _). split; [exact H|split; [exact S|]].
  intros u v Hu Hv. cbn [density_of]. unfold pure_density. rewrite (V u Hu), (V v Hv). unfold ket.
  destruct (list_eq_dec Nat.eq_dec u [1; 0; 1; 1]), (list_eq_dec Nat.eq_dec v [1; 0; 1; 1]); unfold Cconj, Cmul, C0, C1; simpl; f_equal; ring.
Qed.
Example ind_letter : forall x P q, q < 4 -> readable inc_world 4 (ind_vals x) (SDense (product_state [1; 0; 1; 1])) ind_gates [letter_gate P q] (ksum [lop (P, q)]) /\ hermitian 4 (ksum [lop (P, q)]).
Proof.
  intros x P q Hq. split.
  - assert (O : observable_on inc_world 4 (ind_vals x) false [letter_gate P q] (ksum [lop (P, q)])).
    { exists [lop (P, q)]. split; [discriminate|split; [|reflexivity]]. constructor; [apply letter_denotes; exact Hq|constructor]. }
    split; [exists false; exact O|]. intros _. split; [exact O|]. intros s E. assert (E' : s = [q]) by (destruct P; cbv in E; congruence). subst s. repeat constructor.
  - intros u v Hu Hv. assert (V : valid_qubits 4 ([] ++ [q])) by (apply valid_one; exact Hq).
    pose proof (ctrl_kernel_adj 4 (letter_matrix P) [] [q] V u v Hu Hv) as A. unfold kadj, ksum, kadd, kzero, lop, gate_op in *. cbn [fst snd] in *.
    rewrite Cconj_add, A. f_equal; [|unfold Cconj, C0; simpl; f_equal; ring].
    rewrite !(ctrl_kernel_closed 4) by (assumption || apply valid_one; exact Hq). destruct (all_ones (bits_at u [])); [|reflexivity].
    destruct (list_eq_dec Nat.eq_dec (overwrite u [q] (bits_at v [q])) v); [|reflexivity]. apply letter_conj; eapply bitstrings_nth_lt; eassumption.
Qed.
Example C117_example : forall x key, exists va vb,
    expectation inc_world (SDense (product_state [1; 0; 1; 1])) (OpSequence (map OGate ind_gates)) [[letter_gate LZ 2]; [letter_gate LX 3]; [OpSequence [letter_gate LZ 2; letter_gate LX 3]]]
      (ind_vals x) AD 0 key = Ok [va; vb; (va * vb)%R].
Proof.
  intros x key. destruct (ind_letter x LZ 2) as [RA HA]; [lia|]. destruct (ind_letter x LX 3) as [RB _]; [lia|].
  eapply (C117_expectations_multiply inc_world 4 (ind_vals x) ind_reg _ ind_gates [1; 0; 1; 1] _ (letter_gate LZ 2) (letter_gate LX 3) _ _ (ksum [kprod 4 (map lop [(LZ, 2); (LX, 3)])]) AD key);
    [exact inc_world_order|left; reflexivity|apply ind_run|exact ind_prepared|exact ind_parts| | |exact HA|exact RA|exact RB| |constructor].
  - intros g I q (cs & C & Q). cbn in I. destruct I as [<-|[]]. apply ctrl_of_spec in C; subst cs; cbn in Q. destruct Q as [<-|[]]. reflexivity.
  - intros g I q (cs & C & Q). cbn in I. destruct I as [<-|[]]. apply ctrl_of_spec in C; subst cs; cbn in Q. destruct Q as [<-|[]]. reflexivity.
  - assert (O : observable_on inc_world 4 (ind_vals x) false [OpSequence [letter_gate LZ 2; letter_gate LX 3]] (ksum [kprod 4 (map lop [(LZ, 2); (LX, 3)])])).
    { exists [kprod 4 (map lop [(LZ, 2); (LX, 3)])]. split; [discriminate|split; [|reflexivity]]. constructor; [|constructor]. apply den_seq.
      - right. split; [discriminate|]. apply string_commuting; cbn [map snd]; [repeat constructor; simpl; lia|]. repeat (apply Forall_cons; [lia|]). apply Forall_nil.
      - cbn [map]. constructor; [apply letter_denotes; lia|constructor; [apply letter_denotes; lia|constructor]]. }
    split; [exists false; exact O|]. intros _. split; [exact O|]. intros s E. assert (E' : s = [2; 3]) by (cbv in E; congruence). subst s. repeat (constructor; [|repeat constructor; lia]). constructor.
Qed.

(** the outcomes of measuring the two parts are independent *)
Theorem C117_outcomes_are_independent : forall w n vals reg c gs x st, set_order (set_iter w) -> runnable n vals c gs -> prepared n x st -> never_interact reg gs ->
    exists out, run w c st vals = Ok (Some out) /\ state_of n out /\ forall y, In y (bitstrings n) ->
      outcome_probability out y = (register_probability n reg out y * register_probability n (fun q => negb (reg q)) out y)%R.
Proof. exact c117_outcomes. Qed.
Print Assumptions C117_outcomes_are_independent.
Example C117_outcomes_example : forall x, exists out, run inc_world (OpSequence (map OGate ind_gates)) (SDense (product_state [1; 0; 1; 1])) (ind_vals x) = Ok (Some out) /\ state_of 4 out /\
    forall y, In y (bitstrings 4) -> outcome_probability out y = (register_probability 4 ind_reg out y * register_probability 4 (fun q => negb (ind_reg q)) out y)%R.
Proof. intro x. apply (C117_outcomes_are_independent inc_world 4 (ind_vals x) ind_reg _ ind_gates [1; 0; 1; 1]); [exact inc_world_order|apply ind_run|exact ind_prepared|exact ind_parts]. Qed.
