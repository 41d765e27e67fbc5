(** How the input functions are used: sequences of reads, nested files. *)
From Verif Require Import Base MemModel InputModel InputSpec.
Open Scope Z_scope.
Local Notation length := List.length.

(** what a variable of the given format receives from a word *)
Inductive gives : format -> list Z -> value -> Prop :=
| gives_str : forall size w, (length w < size)%nat -> gives (FStr size) w (VStr w)
| gives_int : forall z w, decimal z w -> int32 z -> gives FInt w (VInt z).

(** a program which reads variables one after the other *)
Fixpoint read_all (fs : list format) (st : stream) : res (list (option value) * stream) :=
  match fs with
  | [] => Ok ([], st)
  | f :: r => let! (out, st) := read_var f st in
              let! (outs, st) := read_all r st in
              Ok (out :: outs, st)
  end.

Inductive gives_all : list format -> list (list Z) -> list value -> Prop :=
| ga_nil : gives_all [] [] []
| ga_cons : forall f w v fs ws vs, gives f w v -> gives_all fs ws vs -> gives_all (f :: fs) (w :: ws) (v :: vs).

(** What a program does between two points with the input files: it reads from the current file (which moves to any other
    state), and opens, uses and closes further files. *)
Inductive balanced : inputs -> inputs -> Prop :=
| bal_done : forall i, balanced i i
| bal_read : forall s s' q k, balanced (mkInputs (Some s') q) k -> balanced (mkInputs (Some s) q) k
| bal_nest : forall c i j k l, balanced (open_input c i) j -> close_input j = Ok k -> balanced k l -> balanced i l.

