(** Representation of integers as bytes: specification. *)
From Verif Require Import Base BytesModel.

(** the n bytes of v, least significant first *)
Fixpoint le_bytes (n : nat) (v : Z) : list Z :=
  match n with O => [] | S k => v mod 256 :: le_bytes k (v / 256) end.
Definition bytes_of (e : endianness) (n : nat) (v : Z) : list Z :=
  match e with LittleEndian => le_bytes n v | BigEndian => rev (le_bytes n v) end.
(** the number represented *)
Fixpoint le_value (l : list Z) : Z := match l with [] => 0 | b :: r => b + 256 * le_value r end.
Definition value_of (e : endianness) (l : list Z) : Z :=
  match e with LittleEndian => le_value l | BigEndian => le_value (rev l) end.
