(** Specification vocabulary for the geometry: no reference to how the code computes. *)
From Verif Require Import Base GeometryModel.

(** Row-major index: an independent description of the index of a site of a box *)
Fixpoint row_major (x s : list Z) : Z :=
  match x, s with
  | c :: x', _ :: s' => c * prodZ s' + row_major x' s'
  | _, _ => 0
  end.

(** the lattices on which the global decoding is defined *)
Definition glb_fits_int (g : grid) : Prop := prodZ (glbSize g) <= int_max + 1.

(** x moved by d in direction mu on the periodic lattice: specification *)
Definition periodic_shift (G x : list Z) (mu : nat) (d : Z) : list Z :=
  upd x mu ((x.[mu] + d) mod G.[mu]).

(** site with local coordinate l on the rank with coordinate p *)
Definition join_coords (g : grid) (p l : list Z) : list Z := map2 Z.add (map2 Z.mul p (locSize g)) l.

(** y lies in the local box extended by one layer in the parallelised directions *)
Definition ext_site (g : grid) (y : list Z) : Prop :=
  length y = 4%nat /\
  forall mu, (mu < 4)%nat ->
    if 1 <? (nRanksDir g).[mu] then -1 <= y.[mu] <= (locSize g).[mu] else 0 <= y.[mu] < (locSize g).[mu].

(** number of coordinates of y outside of the local box *)
Definition n_out (g : grid) (y : list Z) : nat :=
  length (filter (fun mu => negb ((0 <=? y.[mu]) && (y.[mu] <? (locSize g).[mu]))) [0;1;2;3]%nat).

(** global coordinates of the site displaced by y from the origin of the rank with coordinates rc *)
Definition true_glb (g : grid) (rc y : list Z) : list Z :=
  map2 Z.modulo (map2 Z.add (map2 Z.mul rc (locSize g)) y) (glbSize g).
