(** Specification of the choice of the process grid. *)
From Verif Require Import Base.
(** R is a way of distributing NR ranks: it divides the lattice exactly, respects the directions
    with a fixed number of ranks (fixn is 0 where free) and leaves even local sides when needed *)
Definition valid_split (L fixn : list Z) (use_eo : bool) (NR : Z) (R : list Z) : Prop :=
  length R = 4%nat /\
  (forall mu, (mu < 4)%nat -> 0 < R.[mu] /\ (R.[mu] | L.[mu])) /\
  prodZ R = NR /\
  (use_eo = true -> forall mu, (mu < 4)%nat -> (2 | L.[mu] / R.[mu])) /\
  (forall mu, (mu < 4)%nat -> fixn.[mu] <> 0 -> R.[mu] = fixn.[mu]).
(** local sites with a neighbour outside of the local box *)
Definition surface (L R : list Z) : Z :=
  prodZ (map2 Z.div L R) - prodZ (map2 (fun l r => Z.max 0 (l / r - 2)) L R).
