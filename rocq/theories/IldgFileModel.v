(** Model of the record oriented files: src/io/ILDG_File.{hpp,cpp}, src/io/buffer.hpp.
    A file is the list of its bytes, each an integer in [0,256), and the current position, which is the same on
    all the ranks between two calls.  A C string is the list of its characters, without the terminator. *)
From Verif Require Import Base BytesModel BytesSpec.

Record file := mkFile { content : list Z; pos : Z }.
(** Crash: the program aborts. Spin: more iterations needed than the fuel given *)
Inductive outcome (A : Type) := Ok (a : A) | Crash | Spin.
Arguments Ok {A} a. Arguments Crash {A}. Arguments Spin {A}.
Definition bind {A B} (o : outcome A) (f : A -> outcome B) : outcome B :=
  match o with Ok a => f a | Crash => Crash | Spin => Spin end.
Notation "'do' x <- a ; b" := (bind a (fun x => b)) (at level 200, x pattern, a at level 100, b at level 200).

(** C library: fread, fwrite (a hole left by seeking beyond the end reads as zeros), fseeko64, size of the file *)
Definition fsize (f : file) : Z := Z.of_nat (length (content f)).
Definition fread (f : file) (n : Z) : list Z * file :=
  let d := firstn (Z.to_nat n) (skipn (Z.to_nat (pos f)) (content f)) in
  (d, mkFile (content f) (pos f + Z.of_nat (length d))).
Definition put_bytes (c : list Z) (p : nat) (d : list Z) : list Z :=
  firstn p (c ++ repeat 0 (p - length c)) ++ d ++ skipn (p + length d) c.
Definition fwrite (f : file) (d : list Z) : file :=
  mkFile (put_bytes (content f) (Z.to_nat (pos f)) d) (pos f + Z.of_nat (length d)).
(** conversion of uint64_t to the signed ILDG_Offset *)
Definition to_int64 (z : Z) : Z := (z + 2 ^ 63) mod 2 ^ 64 - 2 ^ 63.
Definition fseek (f : file) (p : Z) : outcome file := if p <? 0 then Crash else Ok (mkFile (content f) p).

(** src/routines/mpi_routines.cpp:34-40, 190-191 *)
Definition diff_with_next_eight_multiple (p : Z) : Z :=
  let diff := Z.rem p 8 in if negb (diff =? 0) then 8 - diff else diff.
Definition ceil_to_next_eight_multiple (p : Z) : Z := p + diff_with_next_eight_multiple p.

(** ILDG_File.cpp:133-138 *)
Definition skip_nbytes (f : file) (n : Z) : outcome file :=
  if negb (n =? 0) then fseek f (pos f + n) else Ok f.
(** ILDG_File.cpp:171-176 *)
Definition seek_to_next_eight_multiple (f : file) : outcome file := skip_nbytes f (diff_with_next_eight_multiple (pos f)).
(** ILDG_File.cpp:154-168, 179-185 *)
Definition reached_EOF (f : file) : bool := fsize f <=? pos f.

(** ILDG_File.cpp:190-204 *)
Definition read_all (f : file) (n : Z) : outcome (list Z * file) :=
  do f <- seek_to_next_eight_multiple f;
  let '(d, f) := fread f n in
  if negb (Z.of_nat (length d) =? n) then Crash else
  do f <- seek_to_next_eight_multiple f;
  Ok (d, f).

(** ILDG_File.hpp:44-52: the fields of the header, type being the content of char type[128] *)
Record header := mkHeader { magic_no : Z; version : Z; mbme_flag : Z; data_length : Z; type : list Z }.
Definition ILDG_MAGIC_NO : Z := 0x456789ab.
Definition header_size : Z := 144.
(** the 144 bytes of the structure, in the given native order *)
Definition header_bytes (native : endianness) (fix_ : list Z -> list Z) (h : header) : list Z :=
  fix_ (bytes_of native 4 (magic_no h)) ++ fix_ (bytes_of native 2 (version h)) ++
  bytes_of native 2 (mbme_flag h) ++ fix_ (bytes_of native 8 (data_length h)) ++ type h.
Definition sub_bytes (l : list Z) (o n : nat) : list Z := firstn n (skipn o l).
Definition header_of_bytes (native : endianness) (fix_ : list Z -> list Z) (l : list Z) : header :=
  mkHeader (value_of native (fix_ (sub_bytes l 0 4))) (value_of native (fix_ (sub_bytes l 4 2)))
           (value_of native (sub_bytes l 6 2)) (value_of native (fix_ (sub_bytes l 8 8))) (sub_bytes l 16 128).

(** the C string in an array: None if there is no terminator *)
Fixpoint cstr (l : list Z) : option (list Z) :=
  match l with [] => None | c :: r => if c =? 0 then Some [] else option_map (cons c) (cstr r) end.
Fixpoint listZ_eqb (a b : list Z) : bool :=
  match a, b with [], [] => true | x :: a', y :: b' => (x =? y) && listZ_eqb a' b' | _, _ => false end.

(** ILDG_File.cpp:207-231; [ignore]: ignore_ILDG_magic_number *)
Definition get_next_record_header (native : endianness) (ignore : bool) (f : file) : outcome (header * file) :=
  do f <- seek_to_next_eight_multiple f;
  do (d, f) <- read_all f header_size;
  let h := header_of_bytes native (fixToNative native BigEndian) d in
  if negb (magic_no h =? ILDG_MAGIC_NO) && negb ignore then Crash else Ok (h, f).

(** ILDG_File.cpp:234-240: data_length is converted to a signed offset *)
Definition skip_record (f : file) (h : header) : outcome file :=
  do f <- seek_to_next_eight_multiple f;
  do f <- skip_nbytes f (to_int64 (data_length h));
  seek_to_next_eight_multiple f.

(** ILDG_File.cpp:243-262: written by the master, the others skip *)
Definition master_write (f : file) (d : list Z) : file := fwrite f d.

(** strncpy(type,name,127) in a zeroed array of 128 *)
Definition type_field (name : list Z) : list Z :=
  firstn 127 name ++ repeat 0 (127 - length (firstn 127 name)) ++ [0].
(** ILDG_File.cpp:265-277 *)
Definition build_record_header (MB ME : Z) (name : list Z) (len : Z) : header :=
  mkHeader ILDG_MAGIC_NO 1 (MB * 0x80 + ME * 0x40) len (type_field name).
(** ILDG_File.cpp:280-292 *)
Definition write_record_header (native : endianness) (f : file) (h : header) : file :=
  master_write f (header_bytes native (fixFromNative native BigEndian) h).

(** ILDG_File.cpp:41-98 list of messages; each has a name and data *)
Inductive message := Last | Mess (name : list Z) (data : list Z) (next : message).
(** l.53-73 append: follow the chain up to the last message *)
Fixpoint append_to_last (m : message) (name data : list Z) : message :=
  match m with Last => Mess name data Last | Mess n d r => Mess n d (append_to_last r name data) end.
(** l.75-76 *)
Definition string_append_to_last (m : message) (name text : list Z) : message := append_to_last m name (text ++ [0]).

(** ILDG_File.cpp:297-324; [mess]: None if the pointer is NULL *)
Fixpoint search_record (fuel : nat) (native : endianness) (ignore : bool) (f : file) (name : list Z) (mess : option message) :
  outcome (option header * option message * file) :=
  match fuel with
  | O => Spin
  | S fuel =>
      if reached_EOF f then Ok (None, mess, f) else
      do (h, f) <- get_next_record_header native ignore f;
      match cstr (type h) with
      | None => Crash (* reads beyond the end of the array *)
      | Some t =>
          if listZ_eqb name t then Ok (Some h, mess, f)
          else match mess with
               | None => do f <- skip_record f h; search_record fuel native ignore f name None
               | Some m => do (d, f) <- read_all f (data_length h);
                           search_record fuel native ignore f name (Some (append_to_last m t d))
               end
      end
  end.

(** ILDG_File.cpp:389-406 *)
Definition write_record (native : endianness) (f : file) (name data : list Z) : file :=
  let len := ceil_to_next_eight_multiple (Z.of_nat (length data)) in
  let buf := data ++ repeat 0 (Z.to_nat len - length data) in
  master_write (write_record_header native f (build_record_header 0 0 name len)) buf.
(** ILDG_File.cpp:408-411 *)
Definition write_text_record (native : endianness) (f : file) (name text : list Z) : file := write_record native f name (text ++ [0]).
(** ILDG_File.cpp:431-436 *)
Fixpoint write_all_messages (native : endianness) (f : file) (m : message) : file :=
  match m with Last => f | Mess n d r => write_all_messages native (write_record native f n d) r end.

(** buffer.hpp:29-46: operator<< and >> for a value given by its native bytes; the stream is written at its end and
    read from the beginning *)
Record buffer := mkBuffer { st : list Z; tellg : nat }.
Definition buf_put (native : endianness) (b : buffer) (t : list Z) : buffer :=
  mkBuffer (st b ++ fixFromNative native LittleEndian t) (tellg b).
Definition buf_get (native : endianness) (b : buffer) (size : nat) : option (list Z * buffer) :=
  let d := firstn size (skipn (tellg b) (st b)) in
  if (length d =? size)%nat then Some (fixToNative native LittleEndian d, mkBuffer (st b) (tellg b + size)) else None.
(** buffer.hpp:13-20: the difference of the two ends *)
Definition buf_size (b : buffer) : nat := length (st b).
