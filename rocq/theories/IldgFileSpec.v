(** The file format, written independently of the code: each record is a header of 144 bytes followed by the data,
    padded with zeros to a multiple of 8 bytes. *)
From Verif Require Import Base BytesModel BytesSpec IldgFileModel.

Definition padded (d : list Z) : list Z := d ++ repeat 0 (Z.to_nat ((- Z.of_nat (length d)) mod 8)).
Definition record_bytes (r : list Z * list Z) : list Z :=
  bytes_of BigEndian 4 0x456789ab ++ [0; 1] ++ [0; 0] ++ bytes_of BigEndian 8 (Z.of_nat (length (padded (snd r)))) ++
  fst r ++ repeat 0 (128 - length (fst r)) ++ padded (snd r).

(** names a header can hold: characters different from zero, at most 127 *)
Definition good_name (n : list Z) : Prop := (length n <= 127)%nat /\ Forall (fun c => 0 < c < 256) n.
Definition good_record (r : list Z * list Z) : Prop := good_name (fst r) /\ Z.of_nat (length (snd r)) < 2 ^ 63 - 8.
(** a file opened for writing, positioned at its end on a multiple of 8 *)
Definition at_end (f : file) : Prop := pos f = fsize f /\ fsize f mod 8 = 0.

Definition write_list (native : endianness) (f : file) (rs : list (list Z * list Z)) : file :=
  fold_left (fun f r => write_record native f (fst r) (snd r)) rs f.
Fixpoint messages (rs : list (list Z * list Z)) : message :=
  match rs with [] => Last | r :: t => Mess (fst r) (snd r) (messages t) end.
Fixpoint message_list (m : message) : list (list Z * list Z) :=
  match m with Last => [] | Mess n d r => (n, d) :: message_list r end.
