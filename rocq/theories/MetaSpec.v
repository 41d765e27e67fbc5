(** What the potential should be, without the code's grid: the sum of triangular hills. *)
From Coq Require Import Reals ZArith List.
Import ListNotations.
Open Scope R_scope.

(** a triangle of half base 1 and height 1 *)
Definition hat (y : R) : R := Rmax 0 (1 - Rabs y).
(** the calls taken into account: the sweeps after+k*each *)
Definition counted (after each isweep : Z) : bool := ((after <=? isweep) && ((isweep - after) mod each =? 0))%bool%Z.
(** the sum of the hills dropped at the charges of the history, in a point x *)
Fixpoint hills (after each : Z) (coeff width : R) (h : list (Z * R)) (x : R) : R :=
  match h with
  | [] => 0
  | (isweep, Q) :: h' =>
      (if counted after each isweep then coeff * hat ((Q - x) / width) else 0) + hills after each coeff width h' x
  end.
