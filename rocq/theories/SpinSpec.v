(** What the routines on spins and spin matrices have to do. *)
From Coq Require Import Reals List.
From Coquelicot Require Import Complex.
From Verif Require Import CplxModel MatSpec DiracModel DiracSpec.
Open Scope C_scope.

(** the matrix and the vector of four components in memory, and the matrix of a dirac_matr with entries in [d] and positions [p] *)
Definition ss (m : mem) (a : path) : dmat := fun i j => m a@[i]@[j].
Definition sv (m : mem) (a : path) : nat -> C := fun i => m a@[i].
Definition dm (m : mem) (d : path) (p : nat -> nat) : dmat := den (DM p (fun i => m d@[i])).
Definition dvec (x : dmat) (v : nat -> C) : nat -> C := fun i => csum 4 (fun k => x i k * v k).
Definition vdec (v : nat -> C) (x : dmat) : nat -> C := fun i => csum 4 (fun k => v k * x k i).
Definition dtransp (x : dmat) : dmat := fun i j => x j i.
Definition in_ss (a q : path) : Prop := exists i j, (i < 4)%nat /\ (j < 4)%nat /\ q = a@[i]@[j].
Definition in_sv (a q : path) : Prop := exists i, (i < 4)%nat /\ q = a@[i].
(** puts in the matrix [a] the value [v] of the memory before; what it changes is in [a] or satisfies [loc] (local variables) *)
Definition sets_ss_loc (loc : path -> Prop) (o : mem -> mem) (a : path) (v : mem -> dmat) : Prop :=
  forall m, deq (ss (o m) a) (v m) /\ forall q, ~ in_ss a q -> ~ loc q -> o m q = m q.
Definition sets_ss := sets_ss_loc (fun _ => False).
Definition sets_sv_loc (loc : path -> Prop) (o : mem -> mem) (a : path) (v : mem -> nat -> C) : Prop :=
  forall m, (forall i, (i < 4)%nat -> sv (o m) a i = v m i) /\ forall q, ~ in_sv a q -> ~ loc q -> o m q = m q.
Definition sets_sv := sets_sv_loc (fun _ => False).
(** positions of an actual Dirac matrix *)
Definition perm4 (p : nat -> nat) : Prop := (forall i, (i < 4)%nat -> (p i < 4)%nat) /\ forall i j, (i < 4)%nat -> (j < 4)%nat -> p i = p j -> i = j.
