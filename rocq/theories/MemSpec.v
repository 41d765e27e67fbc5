(* What the user of the memory manager expects, written without its tables. *)
From Coq Require Import List Bool ZArith Lia.
From Verif Require Import ExtremeModel MemModel.
Import ListNotations.
Open Scope Z_scope.

Definition disjoint (p n q k : Z) : Prop := p + n <= q \/ q + k <= p.

(* what the system allocator may answer to a request of [size] bytes, given the
   blocks it has handed out and not got back *)
Definition allocator_may_answer (live : list (Z * Z)) (size alignment : Z) (ans : option Z) : Prop :=
  match ans with
  | None => True
  | Some p => 0 < p /\ p mod alignment = 0 /\
              forall q k, In (q, k) live -> disjoint p size q k
  end.

(* requests which make sense: positive alignment, the size fits an int64_t *)
Definition sensible (o : mop) : Prop :=
  match o with
  | Provide szT nel al _ => 0 < szT /\ 0 <= nel /\ szT * nel < 2 ^ 63 /\ 0 < al
  | _ => True
  end.

(* The blocks in the hands of the user, from the calls and what they returned *)
Definition remove_block (p : Z) (h : list (Z * Z)) : list (Z * Z) :=
  filter (fun b => negb (fst b =? p)) h.

Definition in_hand_step (h : list (Z * Z)) (o : mop) (returned : Z) : list (Z * Z) :=
  match o with
  | Provide szT nel _ _ => if nel =? 0 then h else (returned, szT * nel) :: h
  | Release p => remove_block p h
  | ReleaseAll => []
  | _ => h
  end.

Definition total (h : list (Z * Z)) : Z := fold_right (fun b s => snd b + s) 0 h.

(* A history of calls.  [hist os h peak m]: after the calls [os] (none of which
   aborted) the user has the blocks [h] in hand, the total in hand has been at
   most [peak] and reached it, the manager is in the state [m]. *)
Inductive hist : list mop -> list (Z * Z) -> Z -> mm -> Prop :=
| hist_nil : hist [] [] 0 mm_init
| hist_cons : forall os h peak m o p m',
    hist os h peak m ->
    sensible o ->
    (match o with
     | Provide szT nel al ans => allocator_may_answer (heap m) (szT * nel) al ans
     | _ => True end) ->
    mexec false o m = Ok (p, m') ->
    hist (os ++ [o]) (in_hand_step h o p)
         (Z.max peak (total (in_hand_step h o p))) m'.

(* alignments always multiple of the default one, so that the blocks are too *)
Definition default_aligned (o : mop) : Prop :=
  match o with Provide _ _ al _ => al mod DEFAULT_ALIGNMENT = 0 | _ => True end.
