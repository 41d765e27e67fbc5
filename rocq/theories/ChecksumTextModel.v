(** Model of ILDG_File_write_checksum and ILDG_File_read_checksum, src/io/ILDG_File.cpp:327-367, 414-428. *)
From Verif Require Import Base BytesModel IldgFileModel.
From Coq Require Import String Ascii.
Local Notation length := List.length.

(** ASCII codes of a literal *)
Definition chars (s : string) : list Z := map (fun a => Z.of_nat (nat_of_ascii a)) (list_ascii_of_string s).

(** printf "%x": no leading zeros; a 32 bit word has at most 8 digits *)
Definition hex_digit (d : Z) : Z := if d <? 10 then 48 + d else 87 + d.
Fixpoint hex_min (n : nat) (v : Z) : list Z :=
  match n with O => [] | S k => if v =? 0 then [] else hex_min k (v / 16) ++ [hex_digit (v mod 16)] end.
(** printf "%#010x": prefix 0x unless the value is 0, padded with zeros to 10 characters *)
Definition print_hash010x (v : Z) : list Z :=
  if v =? 0 then repeat 48 10
  else chars "0x" ++ repeat 48 (10 - 2 - length (hex_min 8 v)) ++ hex_min 8 v.

(** ILDG_File.cpp:417-425 *)
Definition checksum_message (c : Z * Z) : list Z :=
  chars "<?xml version=""1.0"" encoding=""UTF-8""?><scidacChecksum><version>1.0</version><suma>" ++ print_hash010x (fst c) ++
  chars "</suma><sumb>" ++ print_hash010x (snd c) ++ chars "</sumb></scidacChecksum>".
(** ILDG_File.cpp:427 *)
Definition write_checksum (native : endianness) (f : file) (c : Z * Z) : file :=
  write_text_record native f (chars "scidac-checksum") (checksum_message c).

(** strstr: the part of the text beginning with the first occurrence *)
Fixpoint is_prefix (p s : list Z) : bool :=
  match p, s with [], _ => true | a :: p', b :: s' => (a =? b) && is_prefix p' s' | _, [] => false end.
Fixpoint strstr (s p : list Z) : option (list Z) :=
  if is_prefix p s then Some s else match s with [] => None | _ :: s' => strstr s' p end.

(** sscanf "%x": white space, sign, optional 0x, digits; the value is stored in 32 bits.
    None: no conversion (0 or EOF returned) *)
Definition is_space (c : Z) : bool := (c =? 32) || ((9 <=? c) && (c <=? 13)).
Fixpoint skip_space (s : list Z) : list Z := match s with c :: r => if is_space c then skip_space r else s | [] => [] end.
Definition hex_value (c : Z) : option Z :=
  if (48 <=? c) && (c <=? 57) then Some (c - 48)
  else if (97 <=? c) && (c <=? 102) then Some (c - 87)
  else if (65 <=? c) && (c <=? 70) then Some (c - 55) else None.
Fixpoint read_digits (s : list Z) (acc : Z) : Z :=
  match s with c :: r => match hex_value c with Some d => read_digits r (acc * 16 + d) | None => acc end | [] => acc end.
Definition drop_0x (s : list Z) : list Z :=
  match s with 48 :: x :: r => if (x =? 120) || (x =? 88) then r else s | _ => s end.
Definition starts_digit (s : list Z) : bool := match s with c :: _ => match hex_value c with Some _ => true | None => false end | [] => false end.
Definition drop_sign (s : list Z) : bool * list Z :=
  match s with c :: r => if c =? 45 then (true, r) else if c =? 43 then (false, r) else (false, s) | [] => (false, []) end.
Definition sscanf_x (s : list Z) : option Z :=
  let '(neg, s) := drop_sign (skip_space s) in
  if starts_digit s then let v := read_digits (drop_0x s) 0 in Some ((if neg then - v else v) mod 2 ^ 32) else None.

(** ILDG_File.cpp:327-367; None: the record is not there and the result is not initialised.  When a tag or a number is
    missing the words not read stay 0; sscanf returning EOF (-1) counts as success and leaves 0 too *)
Definition parse_checksum (mess : list Z) : Z * Z :=
  match strstr mess (chars "<suma>"), strstr mess (chars "<sumb>") with
  | Some a, Some b =>
      match sscanf_x (skipn 6 a) with
      | Some va => (va, match sscanf_x (skipn 6 b) with Some vb => vb | None => 0 end)
      | None => (0, match skip_space (skipn 6 a) with [] => match sscanf_x (skipn 6 b) with Some vb => vb | None => 0 end | _ => 0 end)
      end
  | _, _ => (0, 0)
  end.
Definition read_checksum (fuel : nat) (native : endianness) (ignore : bool) (f : file) : outcome (option (Z * Z) * file) :=
  do (h, _, f) <- search_record fuel native ignore f (chars "scidac-checksum") None;
  match h with
  | None => Ok (None, f)
  | Some h =>
      do (d, f) <- read_all f (data_length h);
      match cstr (d ++ [0]) with Some mess => Ok (Some (parse_checksum mess), f) | None => Crash end
  end.
