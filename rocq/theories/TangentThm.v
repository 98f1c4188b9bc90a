(** * Proofs for C129: the forward rule of GPSR is linear in the tangents *)
From Coq Require Import String List Arith Bool Reals Lia Lra.
From Verif Require Import Cplx Py Ndarray OperatorUtils Sparse Noise Gates Apply Composite Conversion Shots Gpsr TangentSpec.
Import ListNotations.
Local Open Scope nat_scope.

Lemma combination_length : forall a b u v, List.length u = List.length v -> List.length (combination a b u v) = List.length u.
Proof. intros a b u v L. unfold combination. rewrite map_length, combine_length, L, Nat.min_id. reflexivity. Qed.
Lemma combination_vadd : forall a b u v u' v', List.length u = List.length v -> List.length u' = List.length v' ->
    vadd (combination a b u v) (combination a b u' v') = combination a b (vadd u u') (vadd v v').
Proof.
  intros a b u v u' v'. revert v u' v'. induction u as [|x u IH]; intros [|y v] u' v' L L'; try discriminate; [reflexivity|].
  destruct u' as [|x' u'], v' as [|y' v']; try discriminate; [reflexivity|]. unfold vadd, combination in *. cbn [combine map fst snd]. f_equal; [ring|]. apply IH; [injection L; auto|injection L'; auto].
Qed.
Lemma vadd_length : forall u u' v v', List.length u = List.length v -> List.length u' = List.length v' -> List.length (vadd u u') = List.length (vadd v v').
Proof. intros u u' v v' L L'. unfold vadd. rewrite !map_length, !combine_length, L, L'. reflexivity. Qed.

Definition rows (grads : list (list R)) (t : list R) : list (list R) := map (fun gt => map (fun x => (x * snd gt)%R) (fst gt)) (combine grads t).
Lemma scaled_combination : forall a b g t t', map (fun x => (x * (a * t + b * t'))%R) g = combination a b (map (fun x => (x * t)%R) g) (map (fun x => (x * t')%R) g).
Proof. intros a b g t t'. unfold combination. induction g as [|x g IH]; [reflexivity|]. cbn [map combine fst snd]. f_equal; [ring|exact IH]. Qed.
Lemma fold_combination : forall a b gs t t' u v, List.length t = List.length t' -> List.length u = List.length v ->
    fold_left vadd (rows gs (combination a b t t')) (combination a b u v) = combination a b (fold_left vadd (rows gs t) u) (fold_left vadd (rows gs t') v) /\
    List.length (fold_left vadd (rows gs t) u) = List.length (fold_left vadd (rows gs t') v).
Proof.
  intros a b gs. induction gs as [|g gs IH]; intros t t' u v L LU; [split; [reflexivity|exact LU]|]. destruct t as [|x t], t' as [|x' t']; try discriminate; [split; [reflexivity|exact LU]|].
  unfold rows. cbn [combination combine map fst snd fold_left].
  change (map (fun xy => (a * fst xy + b * snd xy)%R) (combine t t')) with (combination a b t t'). fold (rows gs (combination a b t t')). fold (rows gs t). fold (rows gs t').
  rewrite scaled_combination, combination_vadd by (rewrite ?map_length; auto). apply IH; [injection L; auto|]. apply vadd_length; [exact LU|rewrite !map_length; reflexivity].
Qed.
Lemma contract_combination : forall a b gs t t', List.length t = List.length t' ->
    jvp_contract gs (combination a b t t') = combination a b (jvp_contract gs t) (jvp_contract gs t').
Proof.
  intros a b gs t t' L. destruct gs as [|g gs]; [reflexivity|]. destruct t as [|x t], t' as [|x' t']; try discriminate; [reflexivity|].
  unfold jvp_contract. cbn [combination combine map fst snd].
  change (map (fun xy => (a * fst xy + b * snd xy)%R) (combine t t')) with (combination a b t t'). fold (rows gs (combination a b t t')). fold (rows gs t). fold (rows gs t').
  rewrite scaled_combination. apply fold_combination; [injection L; auto|rewrite !map_length; reflexivity].
Qed.
Lemma jvp_linear : forall f ga vals t t' a b uuid split key v d v' d', List.length t = List.length t' ->
    gpsr_jvp f ga vals t uuid split key = Ok (v, d) -> gpsr_jvp f ga vals t' uuid split key = Ok (v', d') ->
    v' = v /\ gpsr_jvp f ga vals (combination a b t t') uuid split key = Ok (v, combination a b d d').
Proof.
  intros f ga vals t t' a b uuid split key v d v' d' L. unfold gpsr_jvp. destruct (f ga vals key) as [fw|]; cbn [bind]; [|discriminate].
  destruct (jvp_grads f ga vals uuid split key) as [gs|]; cbn [bind]; [|discriminate]. intros E E'. injection E as <- <-. injection E' as <- <-. split; [reflexivity|].
  rewrite contract_combination by exact L. reflexivity.
Qed.
Lemma c129_exact : forall w st ga obs vals t t' a b uuid v d v' d', List.length t = List.length t' ->
    analytical_gpsr_jvp w st ga obs vals t uuid = Ok (v, d) -> analytical_gpsr_jvp w st ga obs vals t' uuid = Ok (v', d') ->
    v' = v /\ analytical_gpsr_jvp w st ga obs vals (combination a b t t') uuid = Ok (v, combination a b d d').
Proof. intros w st ga obs vals t t' a b uuid. unfold analytical_gpsr_jvp. apply jvp_linear. Qed.
Lemma c129_shots : forall w st ga obs vals t t' a b n_shots uuid split key v d v' d', List.length t = List.length t' ->
    finite_shots_gpsr_jvp w st ga obs vals t n_shots uuid split key = Ok (v, d) -> finite_shots_gpsr_jvp w st ga obs vals t' n_shots uuid split key = Ok (v', d') ->
    v' = v /\ finite_shots_gpsr_jvp w st ga obs vals (combination a b t t') n_shots uuid split key = Ok (v, combination a b d d').
Proof. intros w st ga obs vals t t' a b n_shots uuid split key. unfold finite_shots_gpsr_jvp. apply jvp_linear. Qed.
