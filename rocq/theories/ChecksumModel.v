(** Model of ildgChecksum, src/io/checksum.hpp, on all the ranks. *)
From Verif Require Import Base GeometryModel IldgModel BytesModel ParModel ReduceModel.

(** checksum.hpp:21-30 crcValue; uint32_t words are integers in [0,2^32) *)
Definition poly : Z := 0xedb88320.
Definition crc_step (c : Z) : Z := if Z.odd c then Z.lxor poly (Z.shiftr c 1) else Z.shiftr c 1.
Definition crcValue (c : Z) : Z := Nat.iter 8 crc_step c.

(** checksum.hpp:77: "crc=crcValue(((int)crc^mask[i])&0xff)^(crc>>8)"; mask[i] is a char that may be sign extended,
    which the &0xff makes irrelevant: the byte is taken in [0,256) *)
Definition crc_byte (crc b : Z) : Z := Z.lxor (crcValue (Z.land (Z.lxor crc b) 0xff)) (Z.shiftr crc 8).

(** checksum.hpp:63-79: the bytes of the internal degrees of freedom are read through
    EndiannessMask<BigEndian,nativeEndianness>; degs: the native bytes of each degree of freedom *)
Definition site_crc (native : endianness) (degs : list (list Z)) : Z :=
  Z.lxor (fold_left (fun crc t => fold_left (fun crc i => crc_byte crc (mask_read BigEndian native t i)) (seq 0 (length t)) crc)
            degs 0xffffffff) 0xffffffff.

(** checksum.hpp:54-56: uint32_t arithmetic *)
Definition ildg_ivol (g : grid) (x : list Z) : Z :=
  fold_left (fun a mu => (a * (glbSize g).[mu] + x.[mu]) mod two32) [3;2;1]%nat (x.[0] mod two32).

(** checksum.hpp:82-84 "crc<<r|crc>>(32-r)"; for r=0 the right shift by the width of the type is undefined in C++:
    [shr32] is what the machine gives *)
Definition rotate (shr32 : Z -> Z) (crc r : Z) : Z :=
  Z.lor (Z.shiftl crc r mod two32) (if r =? 0 then shr32 crc else Z.shiftr crc (32 - r)).

(** body of the loop, checksum.hpp:46-85. [data ivol]: degrees of freedom of the field at ivol on this rank;
    the field itself is only read *)
Definition checksum_body (shr32 : Z -> Z) (native : endianness) (g : grid) (ix : Z -> Z -> Z) (rank : Z)
  (data : Z -> list (list Z)) (ivol : Z) : prog Z :=
  match glb_coords g rank ivol with
  | None => Ret
  | Some X =>
      let k := ildg_ivol g X in
      let crc := site_crc native (data ivol) in
      St (ix ivol 0) (rotate shr32 crc (k mod 29)) (St (ix ivol 1) (rotate shr32 crc (k mod 31)) Ret)
  end.

(** checksum.hpp:36-91; buff starts with arbitrary content; the reduction is Field::reduce with ^= and MPI_BXOR *)
Definition ildgChecksum (bk : Z -> backend) (shr32 : Z -> Z) (native : endianness) (g : grid) (ix : Z -> Z -> Z)
  (data : Z -> Z -> list (list Z)) (check : Z -> Z) : Prop :=
  exists buffs : list (mem Z),
    Forall2 (fun rank buff => exists m0, PAR (bk (locVol g)) 0 (locVol g) (checksum_body shr32 native g ix rank (data rank)) m0 buff)
            (seqZ (nranks g)) buffs /\
    field_reduce bk Z.lxor ix 2 (locVol g) buffs check.
