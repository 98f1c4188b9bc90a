(** * Proofs for C126: the text of a gate determines what it does *)
From Coq Require Import String Ascii List Arith Bool Reals Lia Lra Decimal DecimalString DecimalNat.
From Verif Require Import Cplx Py Ndarray OperatorUtils ApplyOperator Sparse Matrices Noise Gates Apply Repr ReprSpec.
Import ListNotations.
Local Open Scope string_scope.

Lemma append_assoc : forall a b c : string, (a ++ b) ++ c = a ++ (b ++ c).
Proof. induction a as [|x a IH]; intros b c; [reflexivity|cbn [append]; rewrite IH; reflexivity]. Qed.
Lemma length_append : forall a b, String.length (a ++ b) = (String.length a + String.length b)%nat.
Proof. induction a as [|x a IH]; intro b; [reflexivity|cbn; rewrite IH; reflexivity]. Qed.
Lemma append_tail_inj : forall t a b, a ++ t = b ++ t -> a = b.
Proof.
  intro t. induction a as [|x a IH]; intros [|y b] E; cbn [append] in E.
  - reflexivity.
  - apply (f_equal String.length) in E. cbn in E. rewrite length_append in E. lia.
  - apply (f_equal String.length) in E. cbn in E. rewrite length_append in E. lia.
  - injection E as -> E. rewrite (IH b E). reflexivity.
Qed.
Lemma append_head_inj : forall a x y, a ++ x = a ++ y -> x = y.
Proof. induction a as [|c a IH]; intros x y E; [exact E|]. injection E as E. apply IH, E. Qed.
Lemma split_at : forall c a a' x x', lacks c a -> lacks c a' -> a ++ String c x = a' ++ String c x' -> a = a' /\ x = x'.
Proof.
  intro c. induction a as [|d a IH]; intros [|d' a'] x x' L L' E; cbn [append] in E.
  - injection E as E. auto.
  - injection E as <- E. elim L'. left. reflexivity.
  - injection E as -> E. elim L. left. reflexivity.
  - injection E as <- E. destruct (IH a' x x') as [-> ->]; [intro H; apply L; right; exact H|intro H; apply L'; right; exact H|exact E|]. auto.
Qed.
Lemma lacks_nil : forall c, lacks c "".
Proof. intros c []. Qed.
Lemma lacks_cons : forall c d s, d <> c -> lacks c s -> lacks c (String d s).
Proof. intros c d s N L [E|H]; auto. Qed.
Lemma lacks_app : forall c a b, lacks c a -> lacks c b -> lacks c (a ++ b).
Proof. intros c. induction a as [|d a IH]; intros b L L'; [exact L'|]. cbn [append]. apply lacks_cons; [intro E; apply L; left; exact E|]. apply IH; [intro H; apply L; right; exact H|exact L']. Qed.
Ltac lacks_const := repeat (apply lacks_cons; [discriminate|]); apply lacks_nil.

(** integers *)
Definition not_digit (c : ascii) : Prop := forall u, lacks c (NilEmpty.string_of_uint u).
Lemma nd_of : forall c, ~ In c (list_ascii_of_string "0123456789") -> not_digit c.
Proof.
  intros c H u. induction u; cbn [NilEmpty.string_of_uint]; [apply lacks_nil|..]; (apply lacks_cons; [|assumption]); intro E; apply H; subst c; cbn; auto 12.
Qed.
Ltac nd := apply nd_of; cbn; intuition discriminate.
Lemma int_text_inj : forall m n, int_text m = int_text n -> m = n.
Proof.
  intros m n E. unfold int_text in E. apply (f_equal NilEmpty.uint_of_string) in E. rewrite !NilEmpty.usu in E. injection E as E. apply Unsigned.to_uint_inj. exact E.
Qed.
Lemma int_text_lacks : forall c n, ~ In c (list_ascii_of_string "0123456789") -> lacks c (int_text n).
Proof. intros c n H. exact (nd_of c H _). Qed.
Lemma int_text_head : forall n, exists d s, int_text n = String d s /\ In d (list_ascii_of_string "0123456789").
Proof.
  intro n. unfold int_text. destruct (Nat.to_uint n) as [|u|u|u|u|u|u|u|u|u|u] eqn:E; [|cbn [NilEmpty.string_of_uint]; do 2 eexists; split; [reflexivity|cbn; auto 12]..].
  exfalso. assert (N : n = 0%nat) by (rewrite <- (Unsigned.of_to n), E; reflexivity). rewrite N in E. discriminate E.
Qed.

(** tuples *)
Lemma concat_cons : forall sep x y l, String.concat sep (x :: y :: l) = x ++ sep ++ String.concat sep (y :: l).
Proof. reflexivity. Qed.
Lemma concat_inj : forall l l', (forall x, In x (l ++ l') -> lacks "," x /\ x <> "") -> List.length l <> 1%nat -> List.length l' <> 1%nat ->
    String.concat ", " l = String.concat ", " l' -> l = l'.
Proof.
  assert (H : forall x y l l', (forall z, In z ((x :: l) ++ (y :: l')) -> lacks "," z /\ z <> "") -> String.concat ", " (x :: l) = String.concat ", " (y :: l') -> x :: l = y :: l').
  { intros x y l. revert x y. induction l as [|x' l IH]; intros x y [|y' l'] HA E.
    - cbn in E. rewrite E. reflexivity.
    - rewrite concat_cons in E. cbn [String.concat] in E. exfalso. destruct (HA x) as [L _]; [left; reflexivity|]. apply L. rewrite E. rewrite append_assoc || idtac.
      clear. induction y as [|d y IH]; cbn; [left; reflexivity|right; exact IH].
    - rewrite concat_cons in E. cbn [String.concat] in E. exfalso. destruct (HA y) as [L _]; [apply in_or_app; right; left; reflexivity|]. apply L. rewrite <- E.
      clear. induction x as [|d x IH]; cbn; [left; reflexivity|right; exact IH].
    - rewrite !concat_cons in E. cbn [append] in E. apply split_at in E; [|apply (HA x); left; reflexivity|apply (HA y); apply in_or_app; right; left; reflexivity].
      destruct E as [-> E]. injection E as E. f_equal. apply IH; [|exact E]. intros z Hz. apply HA. apply in_or_app. apply in_app_or in Hz. destruct Hz; [left|right]; right; assumption. }
  intros [|x l] [|y l'] HA N N' E.
  - reflexivity.
  - exfalso. destruct (HA y) as [_ NE]; [left; reflexivity|]. destruct l'; cbn in E; [apply NE; symmetry; exact E|destruct y; discriminate].
  - exfalso. destruct (HA x) as [_ NE]; [left; reflexivity|]. destruct l; cbn in E; [apply NE; exact E|destruct x; discriminate].
  - apply H; assumption.
Qed.
Lemma tuple_text_inj : forall l l', (forall x, In x (l ++ l') -> lacks "," x /\ x <> "") -> tuple_text l = tuple_text l' -> l = l'.
Proof.
  assert (S : forall x l', (forall z, In z (x :: l') -> lacks "," z /\ z <> "") -> x ++ "," = match l' with [y] => y ++ "," | _ => String.concat ", " l' end -> [x] = l').
  { intros x [|y [|z l']] HA E.
    - cbn in E. destruct x; discriminate.
    - apply append_tail_inj in E. rewrite E. reflexivity.
    - rewrite concat_cons in E. cbn [append] in E. apply split_at in E; [destruct E as [_ E]; discriminate|apply (HA x); left; reflexivity|apply (HA y); right; left; reflexivity]. }
  intros l l' HA E. unfold tuple_text in E. injection E as E. apply append_tail_inj in E.
  destruct l as [|x [|x' l]], l' as [|y [|y' l']]; try reflexivity;
    first [apply concat_inj; [exact HA|cbn; lia|cbn; lia|exact E] | apply S; [intros z [<-|Hz]; apply HA; cbn; auto|exact E] | symmetry; apply S; [intros z [<-|Hz]; apply HA; [apply in_or_app; right; left; reflexivity|apply in_or_app; left; exact Hz]|symmetry; exact E]].
Qed.
Lemma tuple_text_lacks : forall c l, ~ In c (list_ascii_of_string "(), ") -> (forall x, In x l -> lacks c x) -> lacks c (tuple_text l).
Proof.
  intros c l N H. cbn in N. unfold tuple_text. apply lacks_app; [apply lacks_cons; [tauto|apply lacks_nil]|]. apply lacks_app; [|apply lacks_cons; [tauto|apply lacks_nil]].
  assert (CC : forall l, (forall x, In x l -> lacks c x) -> lacks c (String.concat ", " l)).
  { induction l0 as [|x l0 IH]; intro HH; [apply lacks_nil|]. destruct l0 as [|y l0]; [apply HH; left; reflexivity|]. rewrite concat_cons.
    apply lacks_app; [apply HH; left; reflexivity|]. apply lacks_app; [apply lacks_cons; [tauto|apply lacks_cons; [tauto|apply lacks_nil]]|]. apply IH. intros z Hz. apply HH. right. exact Hz. }
  destruct l as [|x [|y l]]; [apply lacks_nil|apply lacks_app; [apply H; left; reflexivity|apply lacks_cons; [tauto|apply lacks_nil]]|apply CC, H].
Qed.
Lemma tuple1_inj : forall a b, tuple_text [a] = tuple_text [b] -> a = b.
Proof. intros a b E. unfold tuple_text in E. injection E as E. apply append_tail_inj in E. apply append_tail_inj in E. exact E. Qed.

Lemma map_inj : forall {A B : Type} (f : A -> B) l l', (forall x y, f x = f y -> x = y) -> map f l = map f l' -> l = l'.
Proof.
  intros A B f. induction l as [|x l IH]; intros [|y l'] I E; try discriminate; [reflexivity|]. cbn in E. injection E as E1 E2. rewrite (I _ _ E1), (IH l' I E2). reflexivity.
Qed.
Lemma target_text_inj : forall g h, target_text g = target_text h -> target g = target h.
Proof.
  intros g h E. unfold target_text in E. apply tuple1_inj in E. apply tuple_text_inj in E.
  - apply (map_inj int_text); [exact int_text_inj|exact E].
  - intros x Hx. apply in_app_or in Hx. assert (X : exists n, x = int_text n) by (destruct Hx as [Hx|Hx]; apply in_map_iff in Hx; destruct Hx as (n & <- & _); eauto).
    destruct X as (n & ->). split; [apply int_text_lacks; cbn; intuition discriminate|]. destruct (int_text_head n) as (d & s & -> & _). discriminate.
Qed.
Lemma target_text_lacks : forall c g, ~ In c (list_ascii_of_string "(), 0123456789") -> lacks c (target_text g).
Proof.
  intros c g N. unfold target_text. assert (N1 : ~ In c (list_ascii_of_string "(), ")) by (intro H; apply N; cbn in H |- *; tauto). assert (N2 : ~ In c (list_ascii_of_string "0123456789")) by (intro H; apply N; cbn in H |- *; tauto).
  apply tuple_text_lacks; [exact N1|]. intros x [<-|[]]. apply tuple_text_lacks; [exact N1|]. intros x Hx. apply in_map_iff in Hx. destruct Hx as (n & <- & _). apply int_text_lacks, N2.
Qed.

(** controls: equal texts mean the same qubits (a NumPy integer may look like an integer) *)
Lemma qidx_text_nat : forall pr p q, qidx_text pr p = qidx_text pr q -> qidx_nat p = qidx_nat q.
Proof.
  assert (NN : forall n, int_text n <> "None") by (intros n E; destruct (int_text_head n) as (d & s & E' & H); rewrite E' in E; injection E as -> _; cbn in H; intuition discriminate).
  assert (NP : forall n m, int_text n <> "np.int64(" ++ int_text m ++ ")") by (intros n m E; destruct (int_text_head n) as (d & s & E' & H); rewrite E' in E; injection E as -> _; cbn in H; intuition discriminate).
  assert (NPI : forall n m, "np.int64(" ++ int_text n ++ ")" = "np.int64(" ++ int_text m ++ ")" -> n = m).
  { intros n m E. apply append_head_inj in E. apply append_tail_inj in E. apply int_text_inj, E. }
  intros pr [n|n|] [m|m|] E; cbn [qidx_text qidx_nat] in *; try reflexivity; destruct (numpy2 pr);
    first [discriminate E | rewrite (int_text_inj _ _ E); reflexivity | rewrite (NPI _ _ E); reflexivity | elim (NN _ E) | elim (NN _ (eq_sym E)) | elim (NP _ _ E) | elim (NP _ _ (eq_sym E))].
Qed.
Lemma qidx_text_ok : forall pr q, lacks "," (qidx_text pr q) /\ qidx_text pr q <> "".
Proof.
  assert (I : forall n, lacks "," (int_text n) /\ int_text n <> "") by (intro n; split; [apply int_text_lacks; cbn; intuition discriminate|destruct (int_text_head n) as (d & s & -> & _); discriminate]).
  intros pr [n|n|]; cbn [qidx_text]; [apply I| |split; [lacks_const|discriminate]]. destruct (numpy2 pr); [|apply I]. split; [|discriminate]. apply lacks_app; [lacks_const|]. apply lacks_app; [apply I|lacks_const].
Qed.
Lemma qidx_text_lacks : forall c pr q, ~ In c (list_ascii_of_string "(), 0123456789None.pit") -> lacks c (qidx_text pr q).
Proof.
  intros c pr q N. assert (N2 : ~ In c (list_ascii_of_string "0123456789")) by (intro H; apply N; cbn in H |- *; tauto). cbn in N.
  assert (B : forall s, (forall d, In d (list_ascii_of_string s) -> d <> c) -> lacks c s) by (intros s H HI; exact (H c HI eq_refl)).
  destruct q as [n|n|]; cbn [qidx_text]; [apply int_text_lacks, N2| |apply B; cbn; intros d Hd; intuition congruence]. destruct (numpy2 pr); [|apply int_text_lacks, N2].
  apply lacks_app; [apply B; cbn; intros d Hd; intuition congruence|]. apply lacks_app; [apply int_text_lacks, N2|apply B; cbn; intros d Hd; intuition congruence].
Qed.
Lemma control_text_lacks : forall c pr g, ~ In c (list_ascii_of_string "(), 0123456789None.pit") -> lacks c (control_text pr g).
Proof.
  intros c pr g N. assert (N1 : ~ In c (list_ascii_of_string "(), ")) by (intro H; apply N; cbn in H |- *; tauto). unfold control_text. destruct (control g) as [|l].
  - apply tuple_text_lacks; [exact N1|]. intros x [<-|[]]. exact (qidx_text_lacks c pr QNone N).
  - apply tuple_text_lacks; [exact N1|]. intros x [<-|[]]. apply tuple_text_lacks; [exact N1|]. intros x Hx. apply in_map_iff in Hx. destruct Hx as (q & <- & _). apply qidx_text_lacks, N.
Qed.
(** the same control qubits, for a gate that is controlled *)
Lemma control_text_qubits : forall pr g h l, control g = CTup l -> is_controlled (control h) = true -> control_text pr g = control_text pr h ->
    exists l', control h = CTup l' /\ map qidx_nat l = map qidx_nat l'.
Proof.
  intros pr g h l EG CH E. unfold control_text in E. rewrite EG in E. destruct (control h) as [|l']; [discriminate CH|]. exists l'. split; [reflexivity|].
  apply tuple1_inj in E. apply tuple_text_inj in E.
  - revert l' E CH. clear EG. assert (H : forall l l', map (qidx_text pr) l = map (qidx_text pr) l' -> map qidx_nat l = map qidx_nat l').
    { clear. induction l as [|x l IH]; intros [|y l'] E; try discriminate; [reflexivity|]. cbn in E |- *. injection E as E1 E2. rewrite (qidx_text_nat _ _ _ E1), (IH _ E2). reflexivity. }
    intros l' E _. apply H, E.
  - intros x Hx. apply in_app_or in Hx. destruct Hx as [Hx|Hx]; apply in_map_iff in Hx; destruct Hx as (q & <- & _); apply qidx_text_ok.
Qed.
Lemma control_text_exact : forall pr g h, numpy2 pr = true -> control_text pr g = control_text pr h -> is_controlled (control g) = is_controlled (control h).
Proof.
  intros pr g h NP E. unfold control_text in E.
  assert (HD : forall l, exists s, tuple_text l = String "(" s) by (intro l; unfold tuple_text; cbn [append]; eauto).
  assert (K : forall p q, qidx_text pr p = qidx_text pr q -> is_controlled_idx p = is_controlled_idx q).
  { intros p q EQ. destruct p as [n|n|], q as [m|m|]; try reflexivity; cbn [qidx_text] in EQ; rewrite ?NP in EQ; destruct (int_text_head n) as (d & s & E1 & H) || destruct (int_text_head m) as (d & s & E1 & H); cbn in H;
      first [rewrite E1 in EQ; injection EQ as EQ _; subst d; intuition discriminate | destruct (int_text_head m) as (d' & s' & E2 & H'); cbn in H'; rewrite E2 in EQ; injection EQ as EQ _; subst d'; intuition discriminate]. }
  destruct (control g) as [|l], (control h) as [|l'].
  - reflexivity.
  - apply tuple1_inj in E. destruct (HD (map (qidx_text pr) l')) as (s & ES). rewrite ES in E. discriminate.
  - apply tuple1_inj in E. destruct (HD (map (qidx_text pr) l)) as (s & ES). rewrite ES in E. discriminate.
  - apply tuple1_inj in E. apply tuple_text_inj in E.
    + cbn [is_controlled]. clear HD. revert l' E. induction l as [|x l IH]; intros [|y l'] E; try discriminate; [reflexivity|]. cbn in E |- *. injection E as E1 E2. rewrite (K _ _ E1), (IH _ E2). reflexivity.
    + intros x Hx. apply in_app_or in Hx. destruct Hx as [Hx|Hx]; apply in_map_iff in Hx; destruct Hx as (q & <- & _); apply qidx_text_ok.
Qed.

Lemma split_field : forall c k T T' R R', lacks c T -> lacks c T' -> lacks c k -> T ++ (k ++ String c R) = T' ++ (k ++ String c R') -> T = T' /\ R = R'.
Proof.
  intros c k T T' R R' L L' LK E. rewrite <- !append_assoc in E. apply split_at in E; [|apply lacks_app; assumption|apply lacks_app; assumption].
  destruct E as [E ->]. split; [exact (append_tail_inj _ _ _ E)|reflexivity].
Qed.

(** the part before the first parenthesis *)
Definition head_text (g : gate) : string := match gclass g with KHam => "_HamiltonianEvolution" | _ => gate_name g end.
(** class, generator and, for ordinary gates, whether it is controlled *)
Definition kind (g : gate) : gate_class * string * bool := (gclass g, generator_name g, match gclass g with KHam => false | _ => is_controlled (control g) end).
Definition kinds : list (gate_class * string) :=
  [(KPrim, "I"); (KPrim, "X"); (KPrim, "Y"); (KPrim, "Z"); (KPrim, "H"); (KPrim, "S"); (KPrim, "T"); (KPrim, "SWAP"); (KPrim, "SQSWAP"); (KPrim, "ISWAP"); (KPrim, "ISQSWAP");
   (KParam, "X"); (KParam, "Y"); (KParam, "Z"); (KPhase, "I"); (KHam, "I")].
Lemma library_kinds : forall g, library_gate g -> In (gclass g, generator_name g) kinds.
Proof.
  intros g H. destruct H as [k t c ns sp H|k p t c ns sp x H|t c x]; [..|cbn; auto 30].
  - repeat (destruct H as [<-|H]; [cbn; auto 30|]). destruct H.
  - repeat (destruct H as [<-|H]; [cbn; auto 30|]). destruct H.
Qed.
Definition head_of (k : gate_class * string) (b : bool) : string :=
  match fst k with KHam => "_HamiltonianEvolution" | _ =>
    let base := match fst k with KPrim | KHam => snd k | KParam => "R" ++ snd k | KPhase => "PHASE" end in if b then "C" ++ base else base end.
Lemma head_is : forall g, head_text g = head_of (gclass g, generator_name g) (is_controlled (control g)).
Proof. intro g. unfold head_text, head_of, gate_name. cbn [fst snd]. destruct (gclass g), (is_controlled (control g)); reflexivity. Qed.
Lemma head_lacks : forall g, library_gate g -> lacks "(" (head_text g).
Proof.
  intros g H. rewrite head_is. apply library_kinds in H. generalize dependent (gclass g, generator_name g). intros k H. cbn in H.
  repeat (destruct H as [<-|H]; [destruct (is_controlled (control g)); cbn; lacks_const|]). destruct H.
Qed.
Lemma head_kind : forall g h, library_gate g -> library_gate h -> head_text g = head_text h ->
    gclass g = gclass h /\ generator_name g = generator_name h /\ (gclass g <> KHam -> is_controlled (control g) = is_controlled (control h)).
Proof.
  assert (K : forall k k' b b', In k kinds -> In k' kinds -> head_of k b = head_of k' b' -> k = k' /\ (fst k <> KHam -> b = b')).
  { intros k k' b b' H H' E. cbn in H, H'.
    repeat (destruct H as [<-|H]; [repeat (destruct H' as [<-|H']; [destruct b, b'; first [discriminate E|split; [reflexivity|first [reflexivity|intros N; elim N; reflexivity|intros _; reflexivity]]]|]); destruct H'|]). destruct H. }
  intros g h G H E. rewrite !head_is in E. destruct (K _ _ _ _ (library_kinds g G) (library_kinds h H) E) as [EK EB]. injection EK as E1 E2. auto.
Qed.

(** effects *)
Lemma operator_ext : forall w ot g h vals, gclass g = gclass h -> generator_name g = generator_name h -> sparse g = sparse h ->
    (gclass g = KParam \/ gclass g = KPhase -> gparam g = gparam h) -> (gclass g <> KPrim -> shift g = shift h) -> operator_of w ot g vals = operator_of w ot h vals.
Proof.
  intros w ot [c n t k ns sp p x] [c' n' t' k' ns' sp' p' x'] vals EC EN ES EP EX. cbn in *. subst c' n' sp'. unfold operator_of, unitary_of, dagger_of, unitary_of, jacobian_of, generator, parse_values. cbn.
  destruct c; [reflexivity|rewrite EP, EX by (auto; discriminate); reflexivity|rewrite EP, EX by (auto; discriminate); reflexivity|rewrite EX by discriminate; reflexivity].
Qed.
Lemma mapM_map : forall {A B : Type} (f : A -> res B) l l', map f l = map f l' -> mapM f l = mapM f l'.
Proof. intros A B f. induction l as [|x l IH]; intros [|y l'] E; try discriminate; [reflexivity|]. cbn in E |- *. injection E as E1 E2. rewrite E1, (IH l' E2). reflexivity. Qed.
(** the control part of a step *)
Definition same_control (c c' : cspec) : Prop := is_controlled c = is_controlled c' /\ (is_controlled c = true -> clen c = clen c' /\ axes_of c = axes_of c').
Lemma apply_operator_state_control : forall w s m t c c', same_control c c' -> apply_operator_state w s m t c = apply_operator_state w s m t c'.
Proof.
  intros w s m t c c' [E1 E2]. assert (P : forall o, prepare_operator o t c = prepare_operator o t c').
  { intro o. unfold prepare_operator. rewrite <- E1. destruct (is_controlled c) eqn:IC; [|reflexivity]. destruct (E2 eq_refl) as [E3 E4]. rewrite E3, E4. reflexivity. }
  unfold apply_operator_state. destruct s as [a|b|a], m as [o|o]; try reflexivity; unfold apply_operator, apply_operator_dm, b_apply_operator; rewrite ?P; try reflexivity.
  rewrite <- E1. destruct (is_controlled c) eqn:IC; [|reflexivity]. destruct (E2 eq_refl) as [E3 E4]. rewrite E3, E4. reflexivity.
Qed.
Lemma effect_ext : forall w g h, (forall ot vals, operator_of w ot g vals = operator_of w ot h vals) -> target g = target h -> noise g = noise h -> same_control (control g) (control h) -> same_effect w g h.
Proof.
  intros w g h EO ET EN EC s vals ot gg mo. unfold apply_gates, prepare_sequence_reduce. rewrite (EO ot vals), ET, EN. destruct (operator_of w ot h vals) as [m|e]; [|reflexivity].
  cbn -[apply_operator_state]. unfold apply_operator_with_noise.
  destruct s as [a|b|a]; rewrite ?(apply_operator_state_control w _ m (target h) _ _ EC); try reflexivity.
  destruct (negb _); [|reflexivity]. destruct (density_mat a) as [r|e]; [|reflexivity]. cbn -[apply_operator_state]. rewrite (apply_operator_state_control w _ m (target h) _ _ EC). reflexivity.
Qed.

Lemma control_same : forall pr g h, control_text pr g = control_text pr h -> is_controlled (control g) = is_controlled (control h) -> same_control (control g) (control h).
Proof.
  intros pr g h E B. split; [exact B|]. intro IC. destruct (control g) as [|l] eqn:EG; [discriminate IC|]. rewrite B in IC.
  destruct (control_text_qubits pr g h l EG IC E) as (l' & EH & EM). rewrite EH. cbn [clen axes_of]. split; [|apply mapM_map, EM].
  apply (f_equal (@List.length _)) in EM. rewrite !map_length in EM. exact EM.
Qed.
Lemma angle_fields : forall pr g h, distinguished pr (numbers g ++ numbers h) -> proper_name pr (gparam g) -> proper_name pr (gparam h) ->
    param_text pr (gparam g) ++ ", shift=" ++ float_text pr (shift g) ++ ")" = param_text pr (gparam h) ++ ", shift=" ++ float_text pr (shift h) ++ ")" ->
    gparam g = gparam h /\ shift g = shift h.
Proof.
  intros pr g h [DI DC] PG PH E.
  assert (L : forall f, In f [g; h] -> lacks "," (param_text pr (gparam f))).
  { intros f [<-|[<-|[]]]; [destruct (gparam g) as [s|x] eqn:EG; [apply PG|]|destruct (gparam h) as [s|x] eqn:EH; [apply PH|]]; cbn [param_text]; refine (proj1 (DC _ _)); apply in_or_app; unfold numbers;
      [rewrite EG; left|rewrite EH; right]; right; left; reflexivity. }
  destruct (split_field "," "" _ _ (" shift=" ++ float_text pr (shift g) ++ ")") (" shift=" ++ float_text pr (shift h) ++ ")") (L g (or_introl eq_refl)) (L h (or_intror (or_introl eq_refl))) (lacks_nil _) E) as [EP ES].
  apply append_head_inj, append_tail_inj in ES. split.
  - destruct (gparam g) as [s|x] eqn:EG, (gparam h) as [s'|x'] eqn:EH; cbn [param_text] in EP.
    + rewrite EP. reflexivity.
    + elim (proj2 PG _ EP).
    + elim (proj2 PH _ (eq_sym EP)).
    + rewrite (DI x x'); [reflexivity|apply in_or_app; left; unfold numbers; rewrite EG; right; left; reflexivity|apply in_or_app; right; unfold numbers; rewrite EH; right; left; reflexivity|exact EP].
  - apply DI; [apply in_or_app; left; left; reflexivity|apply in_or_app; right; left; reflexivity|exact ES].
Qed.

Lemma text_head : forall pr g, exists r, gate_text pr g = head_text g ++ String "(" r.
Proof. intros pr g. unfold gate_text, head_text. destruct (gclass g); eexists; try reflexivity; cbn; reflexivity. Qed.

Lemma c126_gates : forall pr w g h, library_gate g -> library_gate h -> noise g = noise h -> sparse g = sparse h ->
    distinguished pr (numbers g ++ numbers h) -> proper_name pr (gparam g) -> proper_name pr (gparam h) -> (numpy2 pr = true \/ gclass g <> KHam) ->
    gate_text pr g = gate_text pr h -> same_effect w g h.
Proof.
  intros pr w g h LG LH EN ES DI PG PH NP E.
  destruct (text_head pr g) as (r & R1). destruct (text_head pr h) as (r' & R2).
  assert (EH : head_text g = head_text h) by (rewrite R1, R2 in E; apply split_at in E; [apply E|apply head_lacks, LG|apply head_lacks, LH]). clear r r' R1 R2.
  destruct (head_kind g h LG LH EH) as (EC & EG & EB).
  assert (F : target_text g = target_text h /\ control_text pr g = control_text pr h /\ (gclass g = KParam \/ gclass g = KPhase -> gparam g = gparam h) /\ (gclass g <> KPrim -> shift g = shift h)).
  { unfold gate_text in E. unfold head_text in EH. rewrite <- EC in E, EH.
    assert (LT : forall f, lacks "c" (target_text f)) by (intro f; apply target_text_lacks; cbn; intuition discriminate).
    assert (LC : forall f, lacks "a" (control_text pr f)) by (intro f; apply control_text_lacks; cbn; intuition discriminate).
    assert (LS : forall f, lacks "s" (control_text pr f)) by (intro f; apply control_text_lacks; cbn; intuition discriminate).
    destruct (gclass g) eqn:CG.
    - rewrite EH in E. apply append_head_inj, append_head_inj in E.
      destruct (split_field "c" ", " _ _ ("ontrol=" ++ control_text pr g ++ ")") ("ontrol=" ++ control_text pr h ++ ")") (LT g) (LT h) ltac:(lacks_const) E) as [ET E2].
      apply append_head_inj, append_tail_inj in E2. split; [exact ET|split; [exact E2|split; [intros [X|X]; discriminate|intro X; elim X; reflexivity]]].
    - rewrite EH in E. apply append_head_inj, append_head_inj in E.
      destruct (split_field "c" ", " _ _ ("ontrol=" ++ control_text pr g ++ ", param=" ++ param_text pr (gparam g) ++ ", shift=" ++ float_text pr (shift g) ++ ")")
        ("ontrol=" ++ control_text pr h ++ ", param=" ++ param_text pr (gparam h) ++ ", shift=" ++ float_text pr (shift h) ++ ")") (LT g) (LT h) ltac:(lacks_const) E) as [ET E2].
      apply append_head_inj in E2.
      destruct (split_field "a" ", p" _ _ ("ram=" ++ param_text pr (gparam g) ++ ", shift=" ++ float_text pr (shift g) ++ ")")
        ("ram=" ++ param_text pr (gparam h) ++ ", shift=" ++ float_text pr (shift h) ++ ")") (LC g) (LC h) ltac:(lacks_const) E2) as [EX E3].
      apply append_head_inj in E3. destruct (angle_fields pr g h DI PG PH E3) as [EP ESH]. auto.
    - rewrite EH in E. apply append_head_inj, append_head_inj in E.
      destruct (split_field "c" ", " _ _ ("ontrol=" ++ control_text pr g ++ ", param=" ++ param_text pr (gparam g) ++ ", shift=" ++ float_text pr (shift g) ++ ")")
        ("ontrol=" ++ control_text pr h ++ ", param=" ++ param_text pr (gparam h) ++ ", shift=" ++ float_text pr (shift h) ++ ")") (LT g) (LT h) ltac:(lacks_const) E) as [ET E2].
      apply append_head_inj in E2.
      destruct (split_field "a" ", p" _ _ ("ram=" ++ param_text pr (gparam g) ++ ", shift=" ++ float_text pr (shift g) ++ ")")
        ("ram=" ++ param_text pr (gparam h) ++ ", shift=" ++ float_text pr (shift h) ++ ")") (LC g) (LC h) ltac:(lacks_const) E2) as [EX E3].
      apply append_head_inj in E3. destruct (angle_fields pr g h DI PG PH E3) as [EP ESH]. auto.
    - rewrite EG, EN, ES in E. apply append_head_inj, append_head_inj, append_head_inj in E. set (N := match noise h with None => "None" | Some l => tuple_text (map (noise_text pr) l) end) in E. set (S := if sparse h then "True" else "False") in E.
      destruct (split_field "c" ", " _ _ ("ontrol=" ++ control_text pr g ++ ", noise=" ++ N ++ ", sparse=" ++ S ++ ", shift=" ++ float_text pr (shift g) ++ ")")
        ("ontrol=" ++ control_text pr h ++ ", noise=" ++ N ++ ", sparse=" ++ S ++ ", shift=" ++ float_text pr (shift h) ++ ")") (LT g) (LT h) ltac:(lacks_const) E) as [ET E2].
      apply append_head_inj in E2.
      destruct (split_field "s" ", noi" _ _ ("e=" ++ N ++ ", sparse=" ++ S ++ ", shift=" ++ float_text pr (shift g) ++ ")") ("e=" ++ N ++ ", sparse=" ++ S ++ ", shift=" ++ float_text pr (shift h) ++ ")") (LS g) (LS h) ltac:(lacks_const) E2) as [EX E3].
      do 5 apply append_head_inj in E3. apply append_tail_inj in E3. split; [exact ET|split; [exact EX|split; [intros [X|X]; discriminate|intros _]]].
      apply (proj1 DI); [apply in_or_app; left; left; reflexivity|apply in_or_app; right; left; reflexivity|exact E3]. }
  destruct F as (FT & FC & FP & FS). apply effect_ext.
  - intros ot vals. apply operator_ext; assumption.
  - apply target_text_inj, FT.
  - exact EN.
  - apply (control_same pr); [exact FC|]. destruct NP as [NP|NK]; [apply (control_text_exact pr); assumption|apply EB, NK].
Qed.

Lemma c126_noise : forall pr n m, distinguished pr (probabilities_of n ++ probabilities_of m) -> noise_text pr n = noise_text pr m -> n = m.
Proof.
  intros pr [t p] [t' p'] [DI DC] E. unfold noise_text in E. cbn [ntype error_probability] in E. unfold probabilities_of in DI, DC. cbn [error_probability] in DI, DC.
  assert (LN : forall u, lacks "(" (noise_name u)) by (intros []; cbn; lacks_const).
  match type of E with _ ++ "(p=" ++ ?A = _ ++ "(p=" ++ ?B => destruct (split_field "(" "" _ _ ("p=" ++ A) ("p=" ++ B) (LN t) (LN t') (lacks_nil _) E) as [ET EP] end.
  apply append_head_inj, append_tail_inj in EP. assert (T : t = t') by (destruct t, t'; first [reflexivity|discriminate ET]). subst t'. f_equal.
  destruct p as [x|l], p' as [y|l'].
  - f_equal. apply DI; [left; reflexivity|right; left; reflexivity|exact EP].
  - exfalso. destruct (DC x) as (_ & L & _); [left; reflexivity|]. apply L. rewrite EP. left. reflexivity.
  - exfalso. destruct (DC y) as (_ & L & _); [apply in_or_app; right; left; reflexivity|]. apply L. rewrite <- EP. left. reflexivity.
  - f_equal. apply tuple_text_inj in EP.
    + clear E. revert l' EP DI DC. induction l as [|x l IH]; intros [|y l'] EP DI DC; try discriminate; [reflexivity|]. cbn in EP. injection EP as E1 E2.
      rewrite (DI x y); [|left; reflexivity|apply in_or_app; right; left; reflexivity|exact E1]. f_equal. apply IH; [exact E2|..].
      * intros u v Hu Hv. apply DI; apply in_or_app; [apply in_app_or in Hu; destruct Hu; [left|right]; right; assumption|apply in_app_or in Hv; destruct Hv; [left|right]; right; assumption].
      * intros u Hu. apply DC. apply in_or_app. apply in_app_or in Hu. destruct Hu; [left|right]; right; assumption.
    + rewrite <- map_app. intros z Hz. apply in_map_iff in Hz. destruct Hz as (x & <- & Hx). destruct (DC x Hx) as (L1 & _ & L2). auto.
Qed.

(** what is not printed *)
Lemma noise_keeps_dm : forall t fs l a s, foldM (fun s n => apply_noise s t fs n) l (SDM a) = Ok s -> exists r, s = SDM r.
Proof.
  intros t fs. induction l as [|n l IH]; intros a s E; cbn in E; [injection E as <-; eauto|].
  destruct (apply_noise (SDM a) t fs n) as [s'|e] eqn:EA; [|discriminate]. unfold apply_noise in EA. destruct (kraus n) as [ks|]; [|discriminate]. cbn in EA.
  destruct (mapM _ ks) as [ks'|]; [|discriminate]. cbn in EA. destruct (apply_kraus_sum ks' a fs) as [r|]; [|discriminate]. injection EA as <-. apply (IH r s E).
Qed.
Lemma c126_noise_hidden : forall p : R, exists g h, library_gate g /\ library_gate h /\ noise g = None /\ noise h = Some [mkNoise BITFLIP (PFloat p)] /\ (forall pr, gate_text pr g = gate_text pr h) /\
    forall w, ~ same_effect w g h.
Proof.
  intro p. exists (gX (TInt 0) no_control None false), (gX (TInt 0) no_control (Some [mkNoise BITFLIP (PFloat p)]) false).
  split; [apply lg_fixed; cbn; auto|]. split; [apply lg_fixed; cbn; auto|]. split; [reflexivity|split; [reflexivity|split; [reflexivity|]]]. intros w H.
  specialize (H (SDense (zero_state 1)) [] UNITARY false false). unfold apply_gates, prepare_sequence_reduce in H. cbn -[apply_operator_state apply_operator_with_noise density_mat] in H.
  destruct (apply_operator_state w (SDense (zero_state 1)) (MD m_X) [0%nat] (CTup [QNone])) as [s|e] eqn:E1.
  2:{ lazy -[Rplus Rmult Ropp Rminus IZR] in E1. discriminate E1. }
  assert (SD : exists a, s = SDense a) by (unfold apply_operator_state in E1; destruct (apply_operator (zero_state 1) m_X [0%nat] (CTup [QNone])) as [a|e]; [injection E1 as <-; eauto|discriminate]). destruct SD as (a & ->).
  cbn -[apply_operator_with_noise density_mat] in H. destruct (density_mat (zero_state 1)) as [rho|e]; [|discriminate H]. cbn -[apply_operator_with_noise] in H.
  destruct (apply_operator_with_noise w (SDM rho) (MD m_X) [0%nat] (CTup [QNone]) (Some [mkNoise BITFLIP (PFloat p)])) as [s|e] eqn:E2; [|discriminate H]. cbn in H. injection H as <-.
  unfold apply_operator_with_noise in E2. cbn -[apply_operator_dm foldM apply_noise] in E2. destruct (apply_operator_dm _ _ _ _ _) as [r|e]; [|discriminate E2]. cbn -[foldM apply_noise] in E2.
  apply noise_keeps_dm in E2. destruct E2 as (r' & E2). discriminate E2.
Qed.
Lemma c126_names_like_numbers : forall (pr : printer) (x : R), exists g h, library_gate g /\ library_gate h /\ noise g = noise h /\ sparse g = sparse h /\ gate_text pr g = gate_text pr h /\ forall w, ~ same_effect w g h.
Proof.
  intros pr x. exists (RX (PName (float_text pr x)) (TInt 0) no_control None false), (RX (PNum x) (TInt 0) no_control None false).
  split; [exact (lg_angle RX (PName (float_text pr x)) (TInt 0) no_control None false 0 (or_introl eq_refl))|]. split; [exact (lg_angle RX (PNum x) (TInt 0) no_control None false 0 (or_introl eq_refl))|]. split; [reflexivity|split; [reflexivity|split; [reflexivity|]]]. intros w H.
  specialize (H (SDense (zero_state 1)) [] UNITARY false false). lazy -[Rplus Rmult Ropp Rminus IZR Rdiv Rinv sin cos float_text] in H. discriminate H.
Qed.
