(** Saving the ran2 generator as text: src/base/random.cpp:69-98.  A C string is the list of its characters without the
    terminator; None stands for a crash or a write outside a buffer. *)
From Coq Require Import Reals.
From Verif Require Import Base GeometryModel Ran2Model IldgFileModel ChecksumTextModel.
Open Scope Z_scope.
Local Notation length := List.length.

(** the structure seen as an array of RAN2_NTAB+3 int, in the order of random.hpp:39-45 *)
Definition gen_ints (g : rnd_gen) : list Z := idum g :: idum2 g :: iv g ++ [iy g].
Definition gen_of_ints (l : list Z) : rnd_gen :=
  mkGen (l.[0]) (l.[1]) (firstn RAN2_NTAB (skipn 2 l)) (l.[RAN2_NTAB + 2]).

(** printf "%d" of an int: at most 10 digits *)
Fixpoint dec_digits (fuel : nat) (n : Z) : list Z :=
  match fuel with O => [] | S k => (if n <? 10 then [] else dec_digits k (n / 10)) ++ [48 + n mod 10] end.
Definition print_d (z : Z) : list Z := if z <? 0 then 45 :: dec_digits 10 (- z) else dec_digits 10 z.

(** random.cpp:75: snprintf(text,size,"%d",ptr[0]) stores at most size-1 characters *)
Definition snprintf (size : Z) (s : list Z) : list Z := firstn (Z.to_nat (size - 1)) s.
(** random.cpp:82: strncat(text,temp,size) appends up to size characters and the terminator: the buffer has size bytes *)
Definition strncat (size : Z) (text temp : list Z) : option (list Z) :=
  let r := text ++ firstn (Z.to_nat size) temp in
  if Z.of_nat (length r) <? size then Some r else None.
(** random.cpp:69-84 *)
Definition convert_rnd_gen_to_text (size : Z) (g : rnd_gen) : option (list Z) :=
  let p := gen_ints g in
  let? text := fold_left (fun t i => let? t := t in strncat size t (snprintf 20 (32 :: print_d p.[i]))) (seq 1 (RAN2_NTAB + 2))
                         (Some (snprintf size (print_d p.[0]))) in
  if Z.of_nat (length text) =? 1024 then None else Some text.

(** sscanf "%s": skip white space, then all the characters up to the next white space; None if there is none *)
Fixpoint take_word (s : list Z) : list Z := match s with c :: r => if is_space c then [] else c :: take_word r | [] => [] end.
Definition sscanf_s (s : list Z) : option (list Z) := match take_word (skip_space s) with [] => None | w => Some w end.
(** sscanf "%d" *)
Definition dec_value (c : Z) : option Z := if (48 <=? c) && (c <=? 57) then Some (c - 48) else None.
Fixpoint read_dec (s : list Z) (acc : Z) : Z :=
  match s with c :: r => match dec_value c with Some d => read_dec r (acc * 10 + d) | None => acc end | [] => acc end.
Definition sscanf_d (s : list Z) : option Z :=
  let '(neg, s) := drop_sign (skip_space s) in
  match s with
  | c :: _ => match dec_value c with Some _ => let v := read_dec s 0 in Some (wrap32 (if neg then - v else v)) | None => None end
  | [] => None
  end.
(** random.cpp:87-98: n elements still to read; temp has 20 characters; "text+=1+strlen(temp)" *)
Fixpoint read_ints (n : nat) (text : list Z) : option (list Z) :=
  match n with
  | O => Some []
  | S n => let? w := sscanf_s text in
           if (20 <=? length w)%nat then None else
           let? v := sscanf_d w in
           let? r := read_ints n (skipn (1 + length w) text) in Some (v :: r)
  end.
Definition convert_text_to_rnd_gen (text : list Z) : option rnd_gen :=
  let? l := read_ints (RAN2_NTAB + 3) text in Some (gen_of_ints l).
