(** What the routines on complex numbers have to do. *)
From Coq Require Import Reals.
From Coquelicot Require Import Complex.
From Verif Require Import CplxModel.

(** the operation puts in [a] the value [v] of the memory before, and changes nothing else *)
Definition sets (o : mem -> mem) (a : path) (v : mem -> C) : Prop :=
  forall m p, o m p = if path_dec p a then v m else m p.
