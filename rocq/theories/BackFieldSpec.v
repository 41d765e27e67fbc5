(** A constant electromagnetic field on a periodic lattice. *)
From Coq Require Import Reals.
From Coquelicot Require Import Complex.
From Verif Require Import Base GeometryModel GeometrySpec HaloModel EoModel StapleModel StapleSpec MatSpec BackModel BackSpec.
Open Scope Z_scope.

(** the planes of the six components: E_x, E_y, E_z, B_x, B_y, B_z *)
Definition planes : list (nat * nat) := [(0, 1); (0, 2); (0, 3); (2, 3); (3, 1); (1, 2)]%nat.
Definition strength (E B : nat -> R) (mu nu : nat) : R :=
  match mu, nu with
  | 0, 1 => E 0 | 0, 2 => E 1 | 0, 3 => E 2 | 2, 3 => B 0 | 3, 1 => B 1 | 1, 2 => B 2
  | _, _ => 0%R end%nat.
(** a component which is negligible is not applied *)
Definition felt (s : R) : R := if Rlt_dec (/ 10 ^ 10) (Rabs s) then s else 0%R.
(** the flux of the field felt by a charge q through a plaquette, so that the flux through a plane of the lattice is 2 pi q strength *)
Definition flux (G : list Z) (q : R) (E B : nat -> R) (mu nu : nat) : R := (2 * PI * q * felt (strength E B mu nu) / (IZR G.[mu] * IZR G.[nu]))%R.
Definition phases (A : list Z -> nat -> R) : list Z -> nat -> C := fun x mu => expi (A x mu).

(** the site of the lattice which an index of a parity of a rank stands for *)
Definition eo_site (g : grid) (r p k : Z) (x : list Z) : Prop := exists i, loclx_of_loceo (rank_eo g r) p k = Some i /\ glbCoordOfLoclx (rank_labels g r) i = Some x.
(** what a field of numbers, or of matrices, has on the sites of a rank *)
Definition has_u1 (g : grid) (r : Z) (f : list Z -> nat -> C) (s : eofield C) : Prop :=
  forall p k x mu, p = 0 \/ p = 1 -> 0 <= k < locVolh g -> eo_site g r p k x -> (mu < 4)%nat -> s p k mu = Some (f x mu).
Definition has_links (g : grid) (r : Z) (U : list Z -> nat -> cmat) (s : eofield cmat) : Prop :=
  forall p k x mu, p = 0 \/ p = 1 -> 0 <= k < locVolh g -> eo_site g r p k x -> (mu < 4)%nat -> exists v, s p k mu = Some v /\ meq v (U x mu).
Definition has_links_lx (g : grid) (r : Z) (U : list Z -> nat -> cmat) (s : @qfield cmat) : Prop :=
  forall i x mu, 0 <= i < locVol g -> glbCoordOfLoclx (rank_labels g r) i = Some x -> (mu < 4)%nat -> exists v, s i mu = Some v /\ meq v (U x mu).
(** the sign of a link of the staggered operator *)
Definition eta (x : list Z) (mu : nat) : R := if Z.even (sumZ (firstn mu x)) then 1%R else (-1)%R.
(** what multiplies a link when a background field is added, or removed, with or without the staggered signs *)
Definition coupling (rem without : bool) (S : list Z -> nat -> C) (x : list Z) (mu : nat) : C :=
  ((if rem : bool then Cconj (S x mu) else S x mu) * RtoC (if without : bool then 1 else eta x mu))%C.
Definition coupled (rem without : bool) (S : list Z -> nat -> C) (U : list Z -> nat -> cmat) (x : list Z) (mu : nat) : cmat := mscale (coupling rem without S x mu) (U x mu).
