(** Model of the writing and reading of whole fields: ILDG_File_write_ildg_data_all and ILDG_File_read_ildg_data_all
    (src/io/ILDG_File.hpp:147-217, 283-345), write_real_vector (src/io/writer.hpp:19-41) and read_real_vector
    (src/io/reader.hpp:15-70), on all the ranks together.
    The value of a field at a site is the list of its degrees of freedom, each given by its bytes in native order.
    Crash also stands for undefined behaviour. *)
From Verif Require Import Base GeometryModel AllToAllModel IldgModel BytesModel IldgFileModel ChecksumTextModel.

Definition site := list (list Z).
Fixpoint all_cells {A} (t : table A) (l : list Z) : option (list A) :=
  match l with
  | [] => Some []
  | i :: r => match t i, all_cells t r with Some v, Some vs => Some (v :: vs) | _, _ => None end
  end.
Fixpoint omap {A B} (f : A -> outcome B) (l : list A) : outcome (list B) :=
  match l with [] => Ok [] | a :: r => do b <- f a; do bs <- omap f r; Ok (b :: bs) end.

(** ILDG_File.hpp:164-181: what rank r writes; [garbage]: content of temp before.  nb: nbytes_per_rank *)
Definition write_chunk (native : endianness) (g : grid) (sched : Z -> list Z) (data : Z -> Z -> site) (garbage : table site) (nb r : Z) : outcome (list Z) :=
  match ildg_write_remap g sched (fun q i => Some (data q i)) garbage r with
  | None => Crash
  | Some temp =>
      match all_cells temp (seqZ (locVol g)) with
      | None => Crash
      | Some sites => Ok (firstn (Z.to_nat nb) (concat (map (fun s => concat (map (fixFromNative native BigEndian) s)) sites)))
      end
  end.
(** ILDG_File.hpp:190-205: the ranks write at disjoint places; [order] is the order in which the operating system
    executes the writes *)
Definition write_step (chunk : Z -> outcome (list Z)) (ori nb : Z) (o : outcome file) (r : Z) : outcome file :=
  do f <- o; do d <- chunk r; do f <- fseek f (ori + r * nb); Ok (fwrite f d).
(** ILDG_File.hpp:147-217; sz=sizeof(Fund), ndeg=nInternalDegs *)
Definition write_ildg_data_all (native : endianness) (g : grid) (sched : Z -> list Z) (order : list Z) (sz ndeg : Z) (f : file)
  (data : Z -> Z -> site) (garbage : table site) (name : list Z) : outcome file :=
  let data_length := ndeg * sz * glbVol g in
  let f := write_record_header native f (build_record_header 0 0 name data_length) in
  let nb := Z.quot data_length (nranks g) in
  let ori := pos f in
  do f <- fold_left (write_step (write_chunk native g sched data garbage nb) ori nb) order (Ok f);
  do f <- fseek f (ori + ceil_to_next_eight_multiple data_length);
  let pad_diff := Z.rem data_length 8 in
  Ok (if negb (pad_diff =? 0) then master_write f (repeat 0 (Z.to_nat (8 - pad_diff))) else f).

(** ILDG_File.hpp:283-345: rank r reads its piece of the data *)
Definition read_chunk (f : file) (ori nb r : Z) : outcome (list Z) :=
  do f <- fseek f (ori + r * nb);
  let '(d, _) := fread f nb in
  if negb (Z.of_nat (length d) =? nb) then Crash else Ok d.
(** l.320-326 the remapping moves blocks of bps=data_length/glbVol bytes, seen afterwards as a field with
    ndeg*sz bytes per site; sites not covered are not initialised *)
Definition cut (n : Z) (l : list Z) (i : Z) : list Z := sub_bytes l (Z.to_nat (i * n)) (Z.to_nat n).
Definition split_degs (sz ndeg : Z) (s : list Z) : site := map (cut sz s) (seqZ ndeg).
Definition view_field (native : endianness) (sz ndeg : Z) (l : list Z) : table site :=
  fun i => if (0 <=? i) && ((i + 1) * (ndeg * sz) <=? Z.of_nat (length l))
           then Some (map (fixToNative native BigEndian) (split_degs sz ndeg (cut (ndeg * sz) l i))) else None.
Definition read_rank (native : endianness) (g : grid) (sched : Z -> list Z) (sz ndeg bps : Z) (bufs : list (list Z)) (garbage : table (list Z)) (r : Z) :
  outcome (table site) :=
  match ildg_read_remap g sched (fun q i => if (0 <=? i) && (i <? locVol g) then Some (cut bps (nth (Z.to_nat q) bufs []) i) else None) garbage r with
  | None => Crash
  | Some out =>
      match all_cells out (seqZ (locVol g)) with
      | None => Crash
      | Some sites => Ok (view_field native sz ndeg (concat sites))
      end
  end.
Definition read_ildg_data_all (native : endianness) (g : grid) (sched : Z -> list Z) (sz ndeg : Z) (garbage : table (list Z)) (f : file) (h : header) :
  outcome (list (table site) * file) :=
  let ori := pos f in
  let nb := Z.quot (data_length h) (nranks g) in
  do bufs <- omap (read_chunk f ori nb) (seqZ (nranks g));
  do f <- fseek f (ori + ceil_to_next_eight_multiple (data_length h));
  do outs <- omap (read_rank native g sched sz ndeg (Z.quot (data_length h) (glbVol g)) bufs garbage) (seqZ (nranks g));
  Ok (outs, f).

(** writer.hpp:19-41; check: the words computed by ildgChecksum *)
Definition write_real_vector (native : endianness) (g : grid) (sched : Z -> list Z) (order : list Z) (sz ndeg : Z) (f : file)
  (data : Z -> Z -> site) (garbage : table site) (name : list Z) (mess : option message) (check : Z * Z) : outcome file :=
  let f := match mess with Some m => write_all_messages native f m | None => f end in
  do f <- write_ildg_data_all native g sched order sz ndeg f data garbage name;
  Ok (write_checksum native f check).

(** reader.hpp:15-70 with the file already open; returns the messages, the field and the words read.
    l.24: the limit is in units of sizeof(double) *)
Definition read_real_vector (fuel : nat) (native : endianness) (ignore : bool) (g : grid) (sched : Z -> list Z) (sz ndeg : Z) (garbage : table (list Z)) (f : file)
  (name : list Z) (mess : option message) : outcome (option message * list (table site) * option (Z * Z)) :=
  do (h, mess, f) <- search_record fuel native ignore f name mess;
  match h with
  | None => Crash
  | Some h =>
      if ndeg * 8 <? Z.quot (data_length h) (glbVol g) then Crash else
      do (outs, f) <- read_ildg_data_all native g sched sz ndeg garbage f h;
      do (check, f) <- read_checksum fuel native ignore f;
      Ok (mess, outs, check)
  end.
