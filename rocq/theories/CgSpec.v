(** What the properties of the conjugate gradient say: linear, symmetric and positive operators on the first N components *)
From Coq Require Import Reals List ZArith.
From Verif Require Import CgModel.
Import ListNotations.
Open Scope R_scope.

(** two vectors with the same first N components *)
Definition veq (N : nat) (u v : rvec) : Prop := forall i, (i < N)%nat -> u i = v i.
(** f depends on the first N components alone, and is linear on them *)
Definition linear_op (N : nat) (f : rvec -> rvec) : Prop :=
  (forall u v, veq N u v -> veq N (f u) (f v)) /\
  (forall a b u v, veq N (f (fun i => a * u i + b * v i)) (fun i => a * f u i + b * f v i)).
Definition symmetric_op (N : nat) (f : rvec -> rvec) : Prop := forall u v, rdot N (f u) v = rdot N u (f v).
Definition positive_op (N : nat) (f : rvec -> rvec) : Prop := forall u, ~ veq N u (fun _ => 0) -> 0 < rdot N u (f u).
(** square norm of source - f x *)
Definition residual2 (N : nat) (f : rvec -> rvec) (source x : rvec) : R := vnorm2 N (fun i => source i - f x i).
(** the operator of each shift is the one at shift 0 plus the shift *)
Definition shifted (N : nat) (f : R -> rvec -> rvec) : Prop := forall s v, veq N (f s v) (fun i => f 0 v i + s * v i).
