(** 4x4 matrices of complex numbers, and the one that a dirac_matr stands for. *)
From Coq Require Import Reals List.
From Coquelicot Require Import Complex.
From Verif Require Import MatSpec DiracModel.
Open Scope C_scope.

Definition dmat := nat -> nat -> C.
Definition deq (x y : dmat) : Prop := forall i j, (i < 4)%nat -> (j < 4)%nat -> x i j = y i j.
Definition dmul (x y : dmat) : dmat := fun i j => csum 4 (fun k => x i k * y k j).
Definition dtrace (x : dmat) : C := csum 4 (fun i => x i i).
Definition dadd (x y : dmat) : dmat := fun i j => x i j + y i j.
Definition dsub (x y : dmat) : dmat := fun i j => x i j - y i j.
Definition dscale (c : C) (x : dmat) : dmat := fun i j => c * x i j.
Definition ddag (x : dmat) : dmat := fun i j => Cconj (x j i).
Definition did : dmat := fun i j => if Nat.eqb i j then RtoC 1 else RtoC 0.
(** the matrix with, in the row i, entr i at the column pos i and zero elsewhere *)
Definition den (d : dirac_matr) : dmat := fun i j => if Nat.eqb (pos d i) j then entr d i else RtoC 0.
(** the columns are columns of the matrix; no two rows have the same *)
Definition valid (d : dirac_matr) : Prop := forall i, (i < 4)%nat -> (pos d i < 4)%nat.
Definition injective_pos (d : dirac_matr) : Prop := forall i j, (i < 4)%nat -> (j < 4)%nat -> pos d i = pos d j -> i = j.
Definition same_pos (a b : dirac_matr) : Prop := forall i, (i < 4)%nat -> pos a i = pos b i.
