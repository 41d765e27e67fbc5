(** Byte order: src/io/endianness.hpp.  A variable of type T is seen as the list of its sizeof(T) bytes, in the
    order of memory addresses; each byte is an integer in [0,256). *)
From Verif Require Import Base.

(** endianness.hpp:13 *)
Inductive endianness := LittleEndian | BigEndian.
Definition end_eqb (a b : endianness) : bool :=
  match a, b with LittleEndian, LittleEndian | BigEndian, BigEndian => true | _, _ => false end.

(** endianness.hpp:49-69 byteSwap: "out.c[i]=in.c[sizeof(T)-1-i]" *)
Definition byteSwap (t : list Z) : list Z :=
  map (fun i => nth (length t - 1 - i) t 0) (seq 0 (length t)).

(** endianness.hpp:19-46 EndiannessMask::operator[] *)
Definition mask_read (view stored : endianness) (t : list Z) (i : nat) : Z :=
  if end_eqb view stored then nth i t 0 else nth (length t - 1 - i) t 0.

(** endianness.hpp:72-82 fixEndianness<Dest,Source> *)
Definition fixEndianness (dest source : endianness) (t : list Z) : list Z :=
  if end_eqb dest source then t else byteSwap t.
(** endianness.hpp:85-102, on a machine of the given native order *)
Definition fixToNative (native source : endianness) (t : list Z) : list Z := fixEndianness native source t.
Definition fixFromNative (native dest : endianness) (t : list Z) : list Z := fixEndianness dest native t.
