(** * Model of /repo/horqrux/matrices.py.  No proofs in this file. *)
From Coq Require Import List String Reals.
From Verif Require Import Cplx Py Ndarray.
Import ListNotations.
Local Open Scope string_scope.

(** matrices.py:12-18 *)
Definition m_X : arr := matrix [[C0; C1]; [C1; C0]].
(** matrices.py:13 *)
Definition m_Y : arr := matrix [[C0; Copp Ci]; [Ci; C0]].
(** matrices.py:14 *)
Definition m_Z : arr := matrix [[C1; C0]; [C0; Copp C1]].
(** matrices.py:15 *)
Definition m_H : arr := scale (RtoC (1 / sqrt 2)) (matrix [[C1; C1]; [C1; Copp C1]]).
(** matrices.py:16 *)
Definition m_S : arr := matrix [[C1; C0]; [C0; Ci]].
(** matrices.py:17 *)
Definition m_T : arr := matrix [[C1; C0]; [C0; Cexpi (PI / 4)]].
(** matrices.py:18 *)
Definition m_I : arr := matrix [[C1; C0]; [C0; C1]].

(** matrices.py:20 *)
Definition m_SWAP : arr :=
  matrix [[C1; C0; C0; C0]; [C0; C0; C1; C0]; [C0; C1; C0; C0]; [C0; C0; C0; C1]].

(** matrices.py:23-45 (defined, but in no dictionary) *)
Definition m_SQSWAP : arr :=
  matrix [[C1; C0; C0; C0];
          [C0; Cmul (RtoC (1 / 2)) (Cadd C1 Ci); Cmul (RtoC (1 / 2)) (Csub C1 Ci); C0];
          [C0; Cmul (RtoC (1 / 2)) (Csub C1 Ci); Cmul (RtoC (1 / 2)) (Cadd C1 Ci); C0];
          [C0; C0; C0; C1]].
(** matrices.py:33-35 *)
Definition m_ISWAP : arr :=
  matrix [[C1; C0; C0; C0]; [C0; C0; Ci; C0]; [C0; Ci; C0; C0]; [C0; C0; C0; C1]].
(** matrices.py:37-45 *)
Definition m_ISQSWAP : arr :=
  matrix [[C1; C0; C0; C0];
          [C0; RtoC (1 / sqrt 2); Cmul Ci (RtoC (1 / sqrt 2)); C0];
          [C0; Cmul Ci (RtoC (1 / sqrt 2)); RtoC (1 / sqrt 2); C0];
          [C0; C0; C0; C1]].

(** matrices.py:47-56 [OPERATIONS_DICT[name]] *)
Definition operations_dict (name : string) : res arr :=
  if name =? "X" then Ok m_X else
  if name =? "Y" then Ok m_Y else
  if name =? "Z" then Ok m_Z else
  if name =? "H" then Ok m_H else
  if name =? "S" then Ok m_S else
  if name =? "T" then Ok m_T else
  if name =? "I" then Ok m_I else
  if name =? "SWAP" then Ok m_SWAP else Err KeyError.
