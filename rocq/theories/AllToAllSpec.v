(** Specification vocabulary for the all-to-all communicator: no reference to buffers or messages.
    A scattering list gives for each element its index on this rank and a code c standing for
    rank c mod N, index c/N.  A gathering list gives a code and the index where to put the element. *)
From Verif Require Import Base.

(** how many elements rank r sends to rank q *)
Definition moved (N : Z) (sl : Z -> list (Z * Z)) (r q : Z) : Z :=
  Z.of_nat (length (filter (fun p => snd p mod N =? q) (sl r))).
(** how many elements rank r obtains in total *)
Definition received (N : Z) (sl : Z -> list (Z * Z)) (r : Z) : Z := sumZ (map (fun q => moved N sl q r) (seqZ N)).
(** how many elements rank r asks to rank q *)
Definition asked (N : Z) (gl : Z -> list (Z * Z)) (r q : Z) : Z :=
  Z.of_nat (length (filter (fun p => fst p mod N =? q) (gl r))).
Definition asked_from (N : Z) (gl : Z -> list (Z * Z)) (r : Z) : Z := sumZ (map (fun q => asked N gl q r) (seqZ N)).

(** The part staying on the same rank is copied by a loop whose length is the entry of the list of the numbers of
    elements sent (zeros dropped) at the position this rank has among those it receives from: this must be the right number.
    m r q is the number of elements going from r to q. *)
Definition local_part_right (N : Z) (m : Z -> Z -> Z) (r : Z) : Prop :=
  m r r <> 0 ->
  nth_error (filter (fun n => negb (n =? 0)) (map (m r) (seqZ N)))
            (length (filter (fun q => negb (m q r =? 0)) (seqZ r))) = Some (m r r).
