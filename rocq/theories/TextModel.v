(** Small text utilities: src/routines/ios.cpp:25-33, 84-100, 225-232, 248-266; src/io/input.cpp:60-97. *)
From Verif Require Import Base.
Open Scope Z_scope.

(** A C string: its characters before the terminator. *)
Definition cstring := list Z.

(** [sub] is found at the beginning of [s] *)
Fixpoint starts (sub s : cstring) : bool :=
  match sub, s with
  | [], _ => true
  | a :: sub', b :: s' => (a =? b) && starts sub' s'
  | _ :: _, [] => false
  end.
(** The C library's strstr: the first suffix starting with [sub]; a pointer inside the string is the suffix from there on. *)
Fixpoint strstr (s sub : cstring) : option cstring :=
  if starts sub s then Some s else match s with [] => None | _ :: s' => strstr s' sub end.

(** ios.cpp:26-32: count_substrings.  [str+1] when [str] points to the terminator is out of the string: None.  [fuel] bounds
    the number of turns: None when it is not enough. *)
Fixpoint count_loop (fuel : nat) (str : option cstring) (sub : cstring) (rc : Z) : option Z :=
  match fuel with
  | O => None
  | S f => match str with
           | None => Some rc
           | Some [] => None
           | Some (_ :: s') => count_loop f (strstr s' sub) sub (rc + 1)
           end
  end.
Definition count_substrings (str : option cstring) (sub : cstring) : option Z :=
  match str with
  | None => Some 0
  | Some s => count_loop (S (length s)) (strstr s sub) sub 0
  end.

(** ios.cpp:225-232: take_last_characters; [out] is the memory before, from the pointer on; the result is the memory after.
    A negative size becomes a huge one in memcpy: None. *)
Definition take_last_characters (out : Z -> Z) (inp : cstring) (size : Z) : option (Z -> Z) :=
  let len := Z.of_nat (length inp) + 1 in
  let copy_len := if len <=? size then len else size in
  let str_init := if len <=? size then 0 else len - size in
  if copy_len <? 0 then None else
  Some (fun i => if (0 <=? i) && (i <? copy_len) then nth (Z.to_nat (str_init + i)) (inp ++ [0]) 0 else out i).

(** Conversion of an uint64 into a double, round to nearest even (the assignment at ios.cpp:89): below 2^53 exact, else the
    nearest multiple of the spacing of the doubles in its binade. *)
Definition div_near_even (q u : Z) : Z :=
  let d := q / u in let r := q mod u in
  if (2 * r <? u) then d else if (2 * r =? u) then (if Z.even d then d else d + 1) else d + 1.
Definition to_double (q : Z) : Z := let u := 2 ^ (Z.max 0 (Z.log2 q - 52)) in div_near_even q u * u.

(** ios.cpp:84-98: the loop of fprintf_friendly_units.  The double temp is, exactly, [to_double quant]/1024^iord for
    orders=1024, as dividing by a power of two is exact: [num]/[den]. *)
Fixpoint friendly_loop (fuel : nat) (num den orders : Z) (iord : Z) : option (Z * Z * Z) :=
  match fuel with
  | O => None
  | S f => if orders * den <? num then friendly_loop f num (den * orders) orders (iord + 1) else Some (num, den, iord)
  end.
(** ios.cpp:96, 99-100: what fprintf_friendly_filesize prints: (int)(temp+0.5) and the index in the table of six prefixes; the
    index is None when it is outside the table *)
Definition friendly_filesize (fuel : nat) (quant : Z) : option (Z * option Z) :=
  match friendly_loop fuel (to_double quant) 1 1024 0 with
  | None => None
  | Some (num, den, iord) => Some ((2 * num + den) / (2 * den), if iord <? 6 then Some iord else None)
  end.

(** ios.cpp:248-266: the times printed, in order, by print_contraction_to_file *)
Definition printed_times (T twall : Z) : list Z :=
  map (fun tempt => let t := tempt + twall in if T <=? t then t - T else t) (seqZ T).

(** input.cpp:60-83: file_lock on rank 0, given the descriptor returned by open and the result of lockf; the second component
    tells whether the descriptor has been closed, which releases the lock.  input.cpp:86-97: file_unlock. *)
Definition file_lock (fd lockf_result : Z) : Z * bool :=
  if lockf_result =? 0 then (0, true) else (fd, false).
Definition file_unlock (f lockf_result : Z) : Z * bool :=
  if lockf_result =? 0 then (f, false) else (f, true).
