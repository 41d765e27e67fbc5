(** What an input file says, described by how it is written. *)
From Verif Require Import Base.
Open Scope Z_scope.
Local Notation length := List.length.

Definition space (c : Z) : Prop := c = 32 \/ 9 <= c <= 13.
Definition token (t : list Z) : Prop := t <> [] /\ Forall (fun c => ~ space c) t /\ (length t < 1024)%nat.

(** [/*] at the beginning, [*/] at the end of a token (the two characters have codes 47 and 42) *)
Definition starts (t : list Z) : Prop := exists r, t = 47 :: 42 :: r.
Definition ends (t : list Z) : Prop := exists r, t = r ++ [42; 47].

Inductive item := Word (w : list Z) | Comment (ts : list (list Z)).

(** A word does not start as a comment.  A comment is a sequence of tokens of at least two characters, the first
    starting with [/*], the last one and no other ending with [*/]. *)
Definition comment_tokens (ts : list (list Z)) : Prop :=
  Forall (fun t => token t /\ (2 <= length t)%nat) ts.
Definition wf_item (i : item) : Prop :=
  match i with
  | Word w => token w /\ ~ starts w
  | Comment ts => comment_tokens ts /\
                  exists ts' t, ts = ts' ++ [t] /\ ends t /\ Forall (fun u => ~ ends u) ts' /\
                                starts (hd [] ts)
  end.
Definition tokens_of (l : list item) : list (list Z) :=
  flat_map (fun i => match i with Word w => [w] | Comment ts => ts end) l.
Definition words_of (l : list item) : list (list Z) :=
  flat_map (fun i => match i with Word w => [w] | Comment _ => [] end) l.

(** [spaced ts text]: the text is the sequence of tokens separated by white space, with white space allowed before the
    first and after the last *)
Inductive spaced : list (list Z) -> list Z -> Prop :=
| sp_end : forall s, Forall space s -> spaced [] s
| sp_tok : forall s t ts text, Forall space s -> token t -> spaced ts text ->
    (text = [] \/ exists c r, text = c :: r /\ space c) ->
    spaced (t :: ts) (s ++ t ++ text).

(** the text ends with white space *)
Definition terminated (text : list Z) : Prop := exists r c, text = r ++ [c] /\ space c.

(** the decimal writing of an integer *)
Definition digits_value (ds : list Z) : Z := fold_left (fun v c => 10 * v + (c - 48)) ds 0.
Definition decimal (z : Z) (w : list Z) : Prop :=
  exists (neg : bool) ds, w = (if neg then [45] else []) ++ ds /\ ds <> [] /\ Forall (fun c => 48 <= c <= 57) ds /\
                          z = (if neg then - digits_value ds else digits_value ds).
Definition int32 (z : Z) : Prop := - 2 ^ 31 <= z < 2 ^ 31.

(** A configuration file: the assignment of a known parameter, or something said of an unknown one.  [meaning ignore ps es]
    is what remains: each known parameter has its last value, the unknown ones are skipped if the parameter named
    [ignore] is at that point not zero; otherwise there is no meaning. *)
Inductive entry := Assign (name : list Z) (z : Z) | Unknown (name w : list Z).
Definition value_of (ps : list (list Z * Z)) (n : list Z) (v : Z) : Prop := In (n, v) ps.
Definition assign (n : list Z) (z : Z) (ps : list (list Z * Z)) : list (list Z * Z) :=
  map (fun e => if list_eq_dec Z.eq_dec (fst e) n then (fst e, z) else e) ps.
Fixpoint meaning (ignore : list Z) (ps : list (list Z * Z)) (es : list entry) : option (list (list Z * Z)) :=
  match es with
  | [] => Some ps
  | Assign n z :: r => meaning ignore (assign n z ps) r
  | Unknown n w :: r => if existsb (fun e => if list_eq_dec Z.eq_dec (fst e) ignore then negb (snd e =? 0) else false) ps
                        then meaning ignore ps r else None
  end.
(** the words of an entry *)
Definition says (ps : list (list Z * Z)) (e : entry) (ws : list (list Z)) : Prop :=
  match e with
  | Assign n z => In n (map fst ps) /\ (length n < 100)%nat /\ int32 z /\ exists w, decimal z w /\ ws = [n; w]
  | Unknown n w => ~ In n (map fst ps) /\ (length n < 100)%nat /\ (length w < 100)%nat /\ ws = [n; w]
  end.

(** two words are the same up to the case of the letters *)
Definition same_letter (x y : Z) : Prop :=
  x = y \/ (65 <= x <= 90 /\ y = x + 32) \/ (65 <= y <= 90 /\ x = y + 32).
Definition same_word (a b : list Z) : Prop := Forall2 same_letter a b.
