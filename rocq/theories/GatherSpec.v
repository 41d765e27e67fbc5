(** Reading a gathered vector on a T x L^3 lattice by coordinates, and its averages over symmetries. *)
From Coq Require Import Reals ZArith.
Open Scope Z_scope.

Definition at4 (L : Z) (v : Z -> Z -> R) (t x y z id : Z) : R := v (((t * L + x) * L + y) * L + z) id.
Definition refl (n x : Z) : Z := (- x) mod n.
Definition average_reflections (T L : Z) (f : Z -> Z -> Z -> R) (t x y : Z) : R :=
  ((f t x y + f (refl T t) x y + f t (refl L x) y + f (refl T t) (refl L x) y +
    f t x (refl L y) + f (refl T t) x (refl L y) + f t (refl L x) (refl L y) + f (refl T t) (refl L x) (refl L y)) / 8)%R.
Definition average_permutations (f : Z -> Z -> Z -> R) (x y z : Z) : R :=
  ((f x y z + f x z y + f y x z + f y z x + f z x y + f z y x) / 6)%R.
