(** What a user expects of the projection of a matrix on SU(3). *)
From Coq Require Import Reals.
From Coquelicot Require Import Complex.
From Verif Require Import MatSpec.
Open Scope R_scope.

(** the real part of v^dag H v *)
Definition quad (H : cmat) (v : nat -> C) : R := fst (csum 3 (fun i => csum 3 (fun j => Cconj (v i) * H i j * v j)%C)).
(** hermitian, with no negative eigenvalue *)
Definition psd (H : cmat) : Prop := meq (dag H) H /\ forall v, 0 <= quad H v.
(** every entry of the two matrices differs at most by [d] *)
Definition near (d : R) (x y : cmat) : Prop := forall i j, (i < 3)%nat -> (j < 3)%nat -> Cmod (x i j - y i j)%C <= d.
(** [J] is the inverse of [T] *)
Definition inverse_of (J T : cmat) : Prop := meq (mmul T J) mid.
