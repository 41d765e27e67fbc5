(** The history dependent potential: src/new_types/metadynamics.cpp.  Exact real arithmetic (no rounding); conversions to int
    are assumed in range. *)
From Coq Require Import Reals ZArith List.
Import ListNotations.
Open Scope R_scope.

(** metadynamics.hpp:13-82: the parameters used; [grid] is the vector, read only for indices in 0..ngrid *)
Record meta := Meta { after : Z; each : Z; coeff : R; width : R; barr : R; force_out : R; ngrid : Z; grid : Z -> R }.
Definition set_grid (m : meta) (g : Z -> R) : meta :=
  Meta (after m) (each m) (coeff m) (width m) (barr m) (force_out m) (ngrid m) g.

(** floor, and the conversion of a double into an int (towards zero) *)
Definition floorZ (r : R) : Z := Int_part r.
Definition to_int (r : R) : Z := if Rle_dec 0 r then Int_part r else (- Int_part (- r))%Z.

(** grid[i]+=v *)
Definition add_at (g : Z -> R) (i : Z) (v : R) : Z -> R := fun j => if Z.eqb j i then g j + v else g j.

(** metadynamics.cpp:32-51: update *)
Definition update (m : meta) (isweep : Z) (Q : R) : meta :=
  if ((after m <=? isweep) && (Z.rem (isweep - after m) (each m) =? 0))%bool%Z then
    let igrid := to_int (IZR (floorZ (Q / width m)) + IZR (ngrid m) / 2) in
    let alpha := Q / width m in
    let alpha := alpha - IZR (floorZ alpha) in
    let g := grid m in
    let g := if ((0 <=? igrid) && (igrid <=? ngrid m))%bool%Z then add_at g igrid ((1 - alpha) * coeff m) else g in
    let g := if ((0 <=? igrid + 1) && (igrid + 1 <=? ngrid m))%bool%Z then add_at g (igrid + 1) (alpha * coeff m) else g in
    set_grid m g
  else m.

(** metadynamics.cpp:54-68: compute_pot_der *)
Definition compute_pot_der (m : meta) (x : R) : R :=
  let igrid := floorZ ((x + barr m) / width m) in
  if ((0 <=? igrid) && (igrid <? ngrid m))%bool%Z then (grid m (igrid + 1)%Z - grid m igrid) / width m
  else if (igrid <? 0)%Z then - force_out m * (- x - barr m) else force_out m * (x - barr m).

(** metadynamics.cpp:71-91: compute_pot *)
Definition compute_pot (m : meta) (x : R) : R :=
  let igrid := floorZ ((x + barr m) / width m) in
  if ((0 <=? igrid) && (igrid <? ngrid m))%bool%Z then
    let x0 := IZR igrid * width m - barr m in
    let s := (grid m (igrid + 1)%Z - grid m igrid) / width m in
    let q := grid m igrid - s * x0 in
    q + s * x
  else if (igrid <? 0)%Z then force_out m * Rsqr (- x - barr m) / 2 + grid m 0%Z
  else force_out m * Rsqr (x - barr m) / 2 + grid m (ngrid m).

(** metadynamics.cpp:116-117: the check of load on the coordinate read at line igrid *)
Definition load_accepts (m : meta) (igrid : Z) (xread : R) : bool :=
  (igrid =? floorZ ((xread + barr m + width m / 2) / width m))%Z.

(** metadynamics.cpp:157-163: init *)
Definition init (m : meta) : meta :=
  Meta (after m) (each m) (coeff m) (width m) (barr m) (force_out m) (to_int ((2 * barr m + width m / 2) / width m)) (fun _ => 0).

(** a history of calls of update *)
Definition run (m : meta) (h : list (Z * R)) : meta := fold_left (fun m c => update m (fst c) (snd c)) h m.
