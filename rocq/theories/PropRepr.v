(** * C126: gates that print the same do the same.

    The vocabulary is in ReprSpec.v; the printed forms are in Repr.v.  Every theorem is followed by an example that meets its hypotheses. *)
From Coq Require Import String Ascii List Arith Bool Reals Lia Lra.
From Verif Require Import Cplx Py Ndarray OperatorUtils ApplyOperator Sparse Matrices Noise Gates Apply Repr ReprSpec ReprThm.
Import ListNotations.
Local Open Scope nat_scope.

(** two gates of the library with the same noise and the same sparse flag that print the same do the same to every state *)
Theorem C126_equal_text_equal_effect : forall pr w g h, library_gate g -> library_gate h -> noise g = noise h -> sparse g = sparse h ->
    distinguished pr (numbers g ++ numbers h) -> proper_name pr (gparam g) -> proper_name pr (gparam h) -> (numpy2 pr = true \/ gclass g <> KHam) ->
    gate_text pr g = gate_text pr h -> same_effect w g h.
Proof. exact c126_gates. Qed.
Print Assumptions C126_equal_text_equal_effect.
(** RX("theta") with the control qubits (0, 1) and (0, np.int64(1)), printed by NumPy 1 *)
Definition rp_float (x : R) : string := if Req_EM_T x 0 then "0.0"%string else if Req_EM_T x (1 / 2) then "0.5"%string else "1.5"%string.
Definition rp_old : printer := mkPrinter rp_float false.
Definition rp_new : printer := mkPrinter rp_float true.
Example rp_ok : forall pr, float_text pr = rp_float -> distinguished pr [0%R; 0%R].
Proof.
  intros pr E. split; [intros x y [<-|[<-|[]]] [<-|[<-|[]]] _; reflexivity|]. intros x [<-|[<-|[]]]; rewrite E; unfold rp_float; (destruct (Req_EM_T 0 0) as [_|N]; [|elim N; reflexivity]);
    (split; [intro H; cbn in H; intuition discriminate|split; [intro H; cbn in H; intuition discriminate|discriminate]]).
Qed.
Example rp_name : forall pr, float_text pr = rp_float -> proper_name pr (PName "theta").
Proof.
  intros pr E. split; [intro H; cbn in H; intuition discriminate|]. intro x. rewrite E. unfold rp_float. destruct (Req_EM_T x 0); [discriminate|]. destruct (Req_EM_T x (1 / 2)); discriminate.
Qed.
Example C126_example : forall w, same_effect w (RX (PName "theta") (TInt 2) (ITup [QInt 0; QNp 1]) None false) (RX (PName "theta") (TInt 2) (ITup [QInt 0; QInt 1]) None false).
Proof.
  intro w. apply (C126_equal_text_equal_effect rp_old w).
  - exact (lg_angle RX (PName "theta") (TInt 2) (ITup [QInt 0; QNp 1]) None false 0 (or_introl eq_refl)).
  - exact (lg_angle RX (PName "theta") (TInt 2) (ITup [QInt 0; QInt 1]) None false 0 (or_introl eq_refl)).
  - reflexivity.
  - reflexivity.
  - apply rp_ok. reflexivity.
  - apply rp_name. reflexivity.
  - apply rp_name. reflexivity.
  - right. discriminate.
  - reflexivity.
Qed.
(** the texts of some gates *)
Example C126_texts : gate_text rp_new (gX (TInt 1) (IInt 0) None false) = "CX(target=((1,),), control=((0,),))"%string /\
    gate_text rp_new (SWAP (TTup [12; 3]) no_control None false) = "SWAP(target=((12, 3),), control=((None,),))"%string /\
    gate_text rp_new (gX (TInt 1) (INp 0) None false) = "X(target=((1,),), control=((np.int64(0),),))"%string /\
    gate_text rp_new (PHASE (PName "a") (TInt 0) INone None false) = ("PHASE(target=((0,),), control=(None,), param=a, shift=" ++ rp_float 0 ++ ")")%string /\
    noise_text rp_new (mkNoise DEPOLARIZING (PFloat (1 / 2))) = ("Depolarizing(p=" ++ rp_float (1 / 2) ++ ")")%string.
Proof. repeat split. Qed.

(** a noise instance is determined by its text *)
Theorem C126_noise_instances_are_printed_completely : forall pr n m, distinguished pr (probabilities_of n ++ probabilities_of m) -> noise_text pr n = noise_text pr m -> n = m.
Proof. exact c126_noise. Qed.
Print Assumptions C126_noise_instances_are_printed_completely.
Example C126_noise_example : forall n, probabilities_of n = [0%R] -> noise_text rp_new n = noise_text rp_new (mkNoise BITFLIP (PFloat 0)) -> n = mkNoise BITFLIP (PFloat 0).
Proof. intros n P E. apply (C126_noise_instances_are_printed_completely rp_new); [rewrite P; apply rp_ok; reflexivity|exact E]. Qed.

(** the conditions are needed: the text of a gate does not show its noise, and a parameter may be named like a number *)
Theorem C126_noise_of_a_gate_is_not_printed : forall p : R, exists g h, library_gate g /\ library_gate h /\ noise g = None /\ noise h = Some [mkNoise BITFLIP (PFloat p)] /\ (forall pr, gate_text pr g = gate_text pr h) /\
    forall w, ~ same_effect w g h.
Proof. exact c126_noise_hidden. Qed.
Print Assumptions C126_noise_of_a_gate_is_not_printed.
Theorem C126_names_can_look_like_numbers : forall (pr : printer) (x : R), exists g h, library_gate g /\ library_gate h /\ noise g = noise h /\ sparse g = sparse h /\ gate_text pr g = gate_text pr h /\ forall w, ~ same_effect w g h.
Proof. exact c126_names_like_numbers. Qed.
Print Assumptions C126_names_can_look_like_numbers.
