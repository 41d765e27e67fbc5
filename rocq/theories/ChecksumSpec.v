(** The ILDG/SciDAC checksum, defined serially over the global lattice. *)
From Verif Require Import Base BytesModel BytesSpec.

(** CRC-32 one bit at a time (reflected polynomial 0xedb88320) *)
Definition crc32_bit (c : Z) (b : bool) : Z :=
  if xorb (Z.odd c) b then Z.lxor 0xedb88320 (c / 2) else c / 2.
Definition byte_bits (b : Z) : list bool := map (fun i => Z.odd (b / 2 ^ i)) (seqZ 8).
Definition crc32 (bytes : list Z) : Z :=
  Z.lxor (fold_left crc32_bit (flat_map byte_bits bytes) 0xffffffff) 0xffffffff.

(** rotation of 32 bits to the left *)
Definition rotl32 (x r : Z) : Z := (x mod 2 ^ (32 - r)) * 2 ^ r + x / 2 ^ (32 - r).

(** all the coordinates of a lattice *)
Fixpoint all_coords (L : list Z) : list (list Z) :=
  match L with
  | [] => [[]]
  | n :: r => flat_map (fun c => map (cons c) (all_coords r)) (seqZ n)
  end.

(** position of a site in an ILDG file: x fastest, then y, z, t *)
Definition ildg_position (L x : list Z) : Z :=
  ((x.[0] * L.[3] + x.[3]) * L.[2] + x.[2]) * L.[1] + x.[1].

(** exclusive or of the rotated CRC of the big endian bytes of all the sites *)
Definition checksum_spec (L : list Z) (bytes : list Z -> list Z) (p : Z) : Z :=
  fold_right Z.lxor 0 (map (fun x => rotl32 (crc32 (bytes x)) (ildg_position L x mod p)) (all_coords L)).
