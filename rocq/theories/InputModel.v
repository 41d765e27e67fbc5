(** Reading the input files: src/io/input.cpp:149-306, 408-555.  Characters are integers, a C string the list of its
    characters.  Only the master rank touches the file, the token is broadcast and parsed by all: one process is modelled. *)
From Verif Require Import Base MemModel ChecksumTextModel Ran2TextModel.
Open Scope Z_scope.
Local Notation length := List.length.

(** a FILE: characters still to read and end-of-file indicator *)
Record stream := mkStream { rest : list Z; eof : bool }.
(** fopen *)
Definition open_stream (text : list Z) : stream := mkStream text false.

Fixpoint drop_word (s : list Z) : list Z := match s with c :: r => if is_space c then s else drop_word r | [] => [] end.

(** fscanf(f,"%s",tok): skips white space; at the end of the file returns EOF=-1, leaves tok (here the empty string,
    input.cpp:179) and sets the indicator, which is set also when the word is ended by the end of the file *)
Definition fscanf_s (st : stream) : Z * list Z * stream :=
  let s := skip_space (rest st) in
  match s with
  | [] => (-1, [], mkStream [] true)
  | _ => (1, take_word s, mkStream (drop_word s) (match drop_word s with [] => true | _ => false end))
  end.

(** input.cpp:175-193: read_next_token; the callers have a buffer of 1024 characters *)
Definition read_next_token (st : stream) : res (Z * list Z * stream) :=
  if eof st then Crash
  else let '(ok, tok, st) := fscanf_s st in
       if (1024 <=? length tok)%nat then Undef else Ok (ok, tok, st).

(** input.cpp:196-197 *)
Definition check_tok_starts_comment (tok : list Z) : bool :=
  match tok with a :: b :: _ => (a =? 47) && (b =? 42) | _ => false end.
(** input.cpp:198-199: strlen(tok)-2 wraps around when the token has one character (or none), and the comparison starts
    before the beginning of the buffer *)
Definition check_tok_ends_comment (tok : list Z) : res bool :=
  if (length tok <? 2)%nat then Undef
  else match skipn (length tok - 2) tok with
       | [a; b] => Ok ((a =? 42) && (b =? 47))
       | _ => Ok false
       end.

(** input.cpp:202-212: read_up_to_end_of_comment; every turn reads at least one character or ends, so that the fuel given
    below is enough *)
Fixpoint comment_loop (fuel : nat) (st : stream) : res stream :=
  match fuel with
  | O => Undef
  | S k => let! (ok, tok, st) := read_next_token st in
           if negb (ok =? 1) then Crash
           else let! e := check_tok_ends_comment tok in
                if e then Ok st else comment_loop k st
  end.
Definition read_up_to_end_of_comment (st : stream) : res stream := comment_loop (S (length (rest st))) st.

(** input.cpp:220-234: the loop of read_var_catcherr *)
Fixpoint token_loop (fuel : nat) (st : stream) : res (Z * list Z * stream) :=
  match fuel with
  | O => Undef
  | S k => let! (ok, tok, st) := read_next_token st in
           if check_tok_starts_comment tok then
             let! e := check_tok_ends_comment tok in
             let! st := (if e then Ok st else read_up_to_end_of_comment st) in
             token_loop k st
           else Ok (ok, tok, st)
  end.

(** the formats used: "%s" into a buffer of the given size, "%d" *)
Inductive format := FStr (size : nat) | FInt.
Inductive value := VStr (s : list Z) | VInt (z : Z).

(** sscanf(tok,par,out): number of items read and what is written *)
Definition sscanf (f : format) (tok : list Z) : res (Z * option value) :=
  match f with
  | FStr size => match sscanf_s tok with
                 | None => Ok (-1, None)
                 | Some w => if (size <=? length w)%nat then Undef else Ok (1, Some (VStr w))
                 end
  | FInt => match sscanf_d tok with None => Ok (0, None) | Some z => Ok (1, Some (VInt z)) end
  end.

(** input.cpp:215-241: read_var_catcherr returns its result, what it has written in *out, and the stream *)
Definition read_var_catcherr (f : format) (st : stream) : res (Z * option value * stream) :=
  let! (ok, tok, st) := token_loop (S (length (rest st))) st in
  if ok =? 1 then
    let! (n, out) := sscanf f tok in
    Ok (if 0 <? n then 1 else 0, out, st)
  else Ok (ok, None, st).

(** input.cpp:243-244: read_var; a result of -1 is not zero *)
Definition read_var (f : format) (st : stream) : res (option value * stream) :=
  let! (ok, out, st) := read_var_catcherr f st in
  if ok =? 0 then Crash else Ok (out, st).

(** input.cpp:247-248: read_int; [old] is the content of the variable *)
Definition read_int (old : Z) (st : stream) : res (Z * stream) :=
  let! (out, st) := read_var FInt st in
  Ok (match out with Some (VInt z) => z | _ => old end, st).
(** input.cpp:259-260: read_str *)
Definition read_str (size : nat) (old : list Z) (st : stream) : res (list Z * stream) :=
  let! (out, st) := read_var (FStr size) st in
  Ok (match out with Some (VStr s) => s | _ => old end, st).

(** strcasecmp *)
Definition lower (c : Z) : Z := if (65 <=? c) && (c <=? 90) then c + 32 else c.
Fixpoint listZ_eqb (a b : list Z) : bool :=
  match a, b with [], [] => true | x :: a, y :: b => (x =? y) && listZ_eqb a b | _, _ => false end.
Definition strcaseeq (a b : list Z) : bool := listZ_eqb (map lower a) (map lower b).
(** input.cpp:263-270: expect_str; the buffer is not initialised ([junk]) *)
Definition expect_str (exp junk : list Z) (st : stream) : res stream :=
  let! (obt, st) := read_str 1024 junk st in
  if strcaseeq exp obt then Ok st else Crash.
(** input.cpp:273-279: read_str_int *)
Definition read_str_int (exp junk : list Z) (old : Z) (st : stream) : res (Z * stream) :=
  let! st := expect_str exp junk st in read_int old st.
(** input.cpp:311-320: read_list_of_var with "%d"; the list is allocated and not initialised *)
Fixpoint read_entries (n : nat) (st : stream) : res (list (option Z) * stream) :=
  match n with
  | O => Ok ([], st)
  | S k => let! (out, st) := read_var FInt st in
           let! (r, st) := read_entries k st in
           Ok ((match out with Some (VInt z) => Some z | _ => None end) :: r, st)
  end.
Definition read_list_of_ints (tag junk : list Z) (st : stream) : res (list (option Z) * stream) :=
  let! (n, st) := read_str_int tag junk 0 st in
  read_entries (Z.to_nat n) st.

(** input.cpp:461-495: the table of the parameters, with the values of the variables.  The first is
    ignore_unknown_parameters. *)
Definition params := list (list Z * Z).
Definition ignore_name : list Z :=
  [105;103;110;111;114;101;95;117;110;107;110;111;119;110;95;112;97;114;97;109;101;116;101;114;115].

(** input.cpp:510-514: index of the tag, or none *)
Fixpoint find_param (tag : list Z) (ps : params) : option Z :=
  match ps with [] => None | (n, v) :: r => if listZ_eqb tag n then Some v else find_param tag r end.
Fixpoint set_param (tag : list Z) (z : Z) (ps : params) : params :=
  match ps with [] => [] | (n, v) :: r => if listZ_eqb tag n then (n, z) :: r else (n, v) :: set_param tag z r end.
Definition ignoring (ps : params) : bool := match find_param ignore_name ps with Some v => negb (v =? 0) | None => false end.

(** input.cpp:502-542: the loop of read_nissa_config_file; tag and tmp have 100 characters *)
Fixpoint config_loop (fuel : nat) (ps : params) (st : stream) : res params :=
  match fuel with
  | O => Undef
  | S k =>
      let! (nr, out, st) := read_var_catcherr (FStr 100) st in
      let! (ps, st) :=
        (match out with
         | Some (VStr tag) =>
             match find_param tag ps with
             | None => if ignoring ps then
                         let! (_, _, st) := read_var_catcherr (FStr 100) st in Ok (ps, st)
                       else Crash
             | Some old => let! (z, st) := read_int old st in Ok (set_param tag z ps, st)
             end
         | _ => Ok (ps, st)
         end) in
      if nr =? 1 then config_loop k ps st else Ok ps
  end.
(** input.cpp:457-555: read_nissa_config_file, [text] being the content of the file if it exists *)
Definition read_nissa_config_file (text : option (list Z)) (ps : params) : res params :=
  match text with
  | None => Ok ps
  | Some t => config_loop (S (length t)) ps (open_stream t)
  end.

(** input.cpp:150-172: open_input and close_input on the master rank *)
Record inputs := mkInputs { current : option stream; stack : list stream }.
Definition open_input (content : list Z) (i : inputs) : inputs :=
  mkInputs (Some (open_stream content)) (match current i with Some s => stack i ++ [s] | None => stack i end).
Definition close_input (i : inputs) : res inputs :=
  match current i with
  | None => if (length (stack i) =? 0)%nat then Crash else Undef
  | Some _ => match rev (stack i) with
              | [] => Ok (mkInputs None [])
              | s :: r => Ok (mkInputs (Some s) (rev r))
              end
  end.
