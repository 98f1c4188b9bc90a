(** * Vocabulary for moving gates from the circuit into the observable (C116).  No proofs in this file. *)
From Coq Require Import String List Reals.
From Verif Require Import Cplx Py Ndarray OperatorUtils Noise Gates Apply Composite Spec GateSpec PropSpec SampleSpec StructSpec CtorSpec PauliSpec.
Import ListNotations.
Local Open Scope R_scope.

(** - o,  a o + b o',  and P on qubit [a] times Q on qubit [b] *)
Definition minus (o : oper) : oper := OScale [o] (PNum (-1)).
Definition mixture (a : R) (o : oper) (b : R) (o' : oper) : oper := OAdd [OScale [o] (PNum a); OScale [o'] (PNum b)].
Definition two_letters (P : letter) (a : nat) (Q : letter) (b : nat) : oper := OpSequence [letter_gate P a; letter_gate Q b].
(** a gate on qubit [q] without controls *)
Definition plain (mk : target_arg -> index_arg -> option (list noise_inst) -> bool -> gate) (q : nat) : gate := mk (TInt q) no_control None false.

(** Measuring the letter P on [q] after the gate is measuring the operation in the third place before it. *)
Definition one_qubit_rules (q : nat) : list (gate * letter * oper) :=
  let X := letter_gate LX q in let Y := letter_gate LY q in let Z := letter_gate LZ q in
  [(plain gH q, LX, Z); (plain gH q, LY, minus Y); (plain gH q, LZ, X);
   (plain gS q, LX, minus Y); (plain gS q, LY, X); (plain gS q, LZ, Z);
   (plain gX q, LX, X); (plain gX q, LY, minus Y); (plain gX q, LZ, minus Z);
   (plain gY q, LX, minus X); (plain gY q, LY, Y); (plain gY q, LZ, minus Z);
   (plain gZ q, LX, minus X); (plain gZ q, LY, minus Y); (plain gZ q, LZ, Z)].
Definition rotation_rules (p : param) (t : R) (q : nat) : list (gate * letter * oper) :=
  let X := letter_gate LX q in let Y := letter_gate LY q in let Z := letter_gate LZ q in
  [(plain (RX p) q, LX, X); (plain (RX p) q, LY, mixture (cos t) Y (- sin t) Z); (plain (RX p) q, LZ, mixture (cos t) Z (sin t) Y);
   (plain (RY p) q, LX, mixture (cos t) X (sin t) Z); (plain (RY p) q, LY, Y); (plain (RY p) q, LZ, mixture (cos t) Z (- sin t) X);
   (plain (RZ p) q, LX, mixture (cos t) X (- sin t) Y); (plain (RZ p) q, LY, mixture (cos t) Y (sin t) X); (plain (RZ p) q, LZ, Z);
   (plain (PHASE p) q, LX, mixture (cos t) X (- sin t) Y); (plain (PHASE p) q, LY, mixture (cos t) Y (sin t) X); (plain (PHASE p) q, LZ, Z)].
(** the two-qubit gates CNOT, CZ (control [a], target [b]) and SWAP; the letter measured on [a], or on [b] *)
Definition two_qubit_rules (a b : nat) : list (gate * oper * oper) :=
  let CX := gX (TInt b) (IInt a) None false in let CZ := gZ (TInt b) (IInt a) None false in let SW := SWAP (TTup [a; b]) no_control None false in
  [(CX, letter_gate LX a, two_letters LX a LX b); (CX, letter_gate LY a, two_letters LY a LX b); (CX, letter_gate LZ a, letter_gate LZ a);
   (CX, letter_gate LX b, letter_gate LX b); (CX, letter_gate LY b, two_letters LZ a LY b); (CX, letter_gate LZ b, two_letters LZ a LZ b);
   (CZ, letter_gate LX a, two_letters LX a LZ b); (CZ, letter_gate LY a, two_letters LY a LZ b); (CZ, letter_gate LZ a, letter_gate LZ a);
   (CZ, letter_gate LX b, two_letters LZ a LX b); (CZ, letter_gate LY b, two_letters LZ a LY b); (CZ, letter_gate LZ b, letter_gate LZ b);
   (SW, letter_gate LX a, letter_gate LX b); (SW, letter_gate LY a, letter_gate LY b); (SW, letter_gate LZ a, letter_gate LZ b);
   (SW, letter_gate LX b, letter_gate LX a); (SW, letter_gate LY b, letter_gate LY a); (SW, letter_gate LZ b, letter_gate LZ a)].

(** [moved vals g o o']: measuring the operation [o] after the gate [g] is measuring [o'] before it: by the tables, letter by letter
    in products, and term by term in sums; operations on other qubits stay as they are. *)
Inductive moved (vals : values) (g : gate) : oper -> oper -> Prop :=
| mv_one : forall q P o', In (g, P, o') (one_qubit_rules q) -> moved vals g (letter_gate P q) o'
| mv_rotation : forall q p t P o', angle_is vals p t -> In (g, P, o') (rotation_rules p t q) -> moved vals g (letter_gate P q) o'
| mv_two : forall a b o o', In (g, o, o') (two_qubit_rules a b) -> moved vals g o o'
| mv_other : forall o, (forall h q, In h (all_gates o) -> occupies h q -> ~ occupies g q) -> moved vals g o o
| mv_sequence : forall l l', Forall2 (moved vals g) l l' -> moved vals g (OSeq l) (OSeq l')
| mv_scale : forall l l' p, Forall2 (moved vals g) l l' -> moved vals g (OScale l p) (OScale l' p)
| mv_add : forall l l', Forall2 (moved vals g) l l' -> moved vals g (OAdd l) (OAdd l').

(** [moved_all vals gs l l']: the observable with the operations [l], measured after the gates [gs], is the one with the operations
    [l'] before them *)
Inductive moved_all (vals : values) : list gate -> list oper -> list oper -> Prop :=
| ma_nil : forall l, moved_all vals [] l l
| ma_last : forall gs g l l1 l', Forall2 (moved vals g) l l1 -> moved_all vals gs l1 l' -> moved_all vals (gs ++ [g]) l l'.

(** the gates that turn the measurement of the bit [q] into that of the letter [P] on [q]: H for X, S^-1 and H for Y *)
Definition to_letter (Pq : letter * nat) : list gate :=
  match fst Pq with LX => [plain gH (snd Pq)] | LY => [plain (PHASE (PNum (- (PI / 2)))) (snd Pq); plain gH (snd Pq)] | _ => [] end.
Definition basis_change (s : pauli_string) : list gate := flat_map to_letter s.
(** (-1)^(the number of ones among the measured qubits of the string) *)
Fixpoint parity (s : pauli_string) (x : list nat) : R :=
  match s with [] => 1 | (LI, _) :: s' => parity s' x | (_, q) :: s' => (if Nat.eqb (nth q x 0%nat) 0 then 1 else -1) * parity s' x end.
(** the probability of the outcome [x] in the state [st] *)
Definition outcome_probability (st : state) (x : list nat) : R := re (density_of st x x).
