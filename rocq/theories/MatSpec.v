(** Matrices of complex numbers and what the routines have to do on them. *)
From Coq Require Import Reals List.
From Coquelicot Require Import Complex.
From Verif Require Import CplxModel CplxSpec MatModel.
Open Scope C_scope.

(** sum of f 0 ... f (n-1) *)
Fixpoint csum (n : nat) (f : nat -> C) : C := match n with O => 0%R | S k => csum k f + f k end.
(** 3x3 matrices and vectors with 3 components: the entries with indices from 3 on do not matter *)
Definition cmat := nat -> nat -> C.
Definition cvec := nat -> C.
Definition meq (x y : cmat) : Prop := forall i j, (i < 3)%nat -> (j < 3)%nat -> x i j = y i j.
Definition veq (x y : cvec) : Prop := forall i, (i < 3)%nat -> x i = y i.
Definition mmul (x y : cmat) : cmat := fun i j => csum 3 (fun k => x i k * y k j).
Definition mvec (x : cmat) (v : cvec) : cvec := fun i => csum 3 (fun k => x i k * v k).
Definition dag (x : cmat) : cmat := fun i j => Cconj (x j i).
Definition madd (x y : cmat) : cmat := fun i j => x i j + y i j.
Definition msub (x y : cmat) : cmat := fun i j => x i j - y i j.
Definition mscale (c : C) (x : cmat) : cmat := fun i j => c * x i j.
Definition mid : cmat := fun i j => if Nat.eqb i j then RtoC 1 else RtoC 0.
Definition trace (x : cmat) : C := csum 3 (fun i => x i i).
(** sum over the permutations of the columns *)
Definition det (x : cmat) : C :=
  x 0%nat 0%nat * x 1%nat 1%nat * x 2%nat 2%nat + x 0%nat 1%nat * x 1%nat 2%nat * x 2%nat 0%nat + x 0%nat 2%nat * x 1%nat 0%nat * x 2%nat 1%nat
  - x 0%nat 2%nat * x 1%nat 1%nat * x 2%nat 0%nat - x 0%nat 1%nat * x 1%nat 0%nat * x 2%nat 2%nat - x 0%nat 0%nat * x 1%nat 2%nat * x 2%nat 1%nat.
(** |x|^2, sum of the squared moduli of the entries *)
Definition norm2 (x : cmat) : R := fst (trace (mmul x (dag x))).
(** hermitian and antihermitian part, and what is left after removing the trace *)
Definition herm_part (x : cmat) : cmat := mscale (RtoC (/ 2)) (madd x (dag x)).
Definition anti_herm_part (x : cmat) : cmat := mscale (RtoC (/ 2)) (msub x (dag x)).
Definition traceless_part (x : cmat) : cmat := msub x (mscale (trace x * RtoC (/ 3)) mid).
Definition unitary (x : cmat) : Prop := meq (mmul x (dag x)) mid.
Definition special_unitary (x : cmat) : Prop := unitary x /\ det x = RtoC 1.
Definition hermitian (x : cmat) : Prop := meq (dag x) x.
Definition anti_hermitian (x : cmat) : Prop := meq (dag x) (mscale (RtoC (-1)) x).

(** the matrix and the vector found in memory *)
Definition mat (m : mem) (a : path) : cmat := fun i j => m a@[i]@[j].
Definition vec (m : mem) (a : path) : cvec := fun i => m a@[i].
Definition in_mat (a p : path) : Prop := exists i j, (i < 3)%nat /\ (j < 3)%nat /\ p = a@[i]@[j].
Definition in_vec (a p : path) : Prop := exists i, (i < 3)%nat /\ p = a@[i].

(** the operation puts in the matrix [a] the value [v] of the memory before; the locations it changes are in [a] or satisfy
    [loc] (its local variables) *)
Definition sets_mat_loc (loc : path -> Prop) (o : mem -> mem) (a : path) (v : mem -> cmat) : Prop :=
  forall m, meq (mat (o m) a) (v m) /\ forall p, ~ in_mat a p -> ~ loc p -> o m p = m p.
Definition sets_mat := sets_mat_loc (fun _ => False).
Definition sets_vec_loc (loc : path -> Prop) (o : mem -> mem) (a : path) (v : mem -> cvec) : Prop :=
  forall m, veq (vec (o m) a) (v m) /\ forall p, ~ in_vec a p -> ~ loc p -> o m p = m p.
Definition sets_vec := sets_vec_loc (fun _ => False).
Definition sets_loc (loc : path -> Prop) (o : mem -> mem) (a : path) (v : mem -> C) : Prop :=
  forall m, o m a = v m /\ forall p, p <> a -> ~ loc p -> o m p = m p.
(** only the first [nr] rows *)
Definition sets_rows (nr : nat) (o : mem -> mem) (a : path) (v : mem -> cmat) : Prop :=
  forall m, (forall i j, (i < nr)%nat -> (j < 3)%nat -> mat (o m) a i j = v m i j) /\
    (forall p, (forall i j, (i < nr)%nat -> (j < 3)%nat -> p <> a@[i]@[j]) -> o m p = m p).
(** the local variables of the products with an SU(2) matrix, and a matrix which is none of them *)
Definition su2_loc (md row p : path) : Prop := (exists i j, p = md@[i]@[j]) \/ (exists i, p = row@[i]).
Definition su2_apart (a md row : path) : Prop := a <> md /\ (forall i, row <> a@[i]) /\ (forall i, row <> md@[i]).
Definition loc4 (prod md row p : path) : Prop := in_mat prod p \/ su2_loc md row p.
(** the four links of a site *)
Definition in_quad (a p : path) : Prop := exists mu, (mu < 4)%nat /\ in_mat a@[mu] p.
