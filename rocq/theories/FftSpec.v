(** Discrete Fourier transform of a field on a periodic lattice with sides L, in the directions chosen. *)
From Verif Require Import Base GeometryModel GeometrySpec FftModel.
From Coq Require Import Reals.
From Coquelicot Require Import Complex.

(** (F f)(x) = sum_t f(..) e^(sign 2 pi i sum_mu x_mu t_mu/L_mu): in the directions chosen t_mu runs on the lattice, in the others it is x_mu and has no phase *)
Definition dft (L : list Z) (dirs : nat -> bool) (sign : R) (f : list Z -> C) (x : list Z) : C :=
  let n mu := if dirs mu then L.[mu] else 1 in
  let c mu t := if dirs mu then t else x.[mu] in
  let a mu t := if dirs mu then (IZR t * IZR x.[mu] / IZR L.[mu])%R else 0%R in
  zsum (n 3%nat) (fun t3 => zsum (n 2%nat) (fun t2 => zsum (n 1%nat) (fun t1 => zsum (n 0%nat) (fun t0 =>
    f [c 0%nat t0; c 1%nat t1; c 2%nat t2; c 3%nat t3] *
    cis (sign * (2 * PI) * (a 0%nat t0 + a 1%nat t1 + a 2%nat t2 + a 3%nat t3)))%C))).
(** number of points summed *)
Definition dft_norm (L : list Z) (dirs : nat -> bool) : R :=
  let n mu := if dirs mu then IZR L.[mu] else 1%R in (n 0%nat * n 1%nat * n 2%nat * n 3%nat)%R.
(** sum on the lattice *)
Definition bsum (L : list Z) (f : list Z -> C) : C :=
  zsum L.[3] (fun t3 => zsum L.[2] (fun t2 => zsum L.[1] (fun t1 => zsum L.[0] (fun t0 => f [t0; t1; t2; t3])))).
(** x-y and x+y on the periodic lattice *)
Definition periodic_sub (L x y : list Z) : list Z := map (fun mu => (x.[mu] - y.[mu]) mod L.[mu]) [0; 1; 2; 3]%nat.
Definition periodic_add (L x y : list Z) : list Z := map (fun mu => (x.[mu] + y.[mu]) mod L.[mu]) [0; 1; 2; 3]%nat.

(** every rank holds on its sites the field given *)
Definition holds {A} (g : grid) (data : Z -> table A) (f : list Z -> A) : Prop :=
  forall r i x, 0 <= r < nranks g -> 0 <= i < locVol g -> IldgModel.glb_coords g r i = Some x -> data r i = Some (f x).
(** the loops visit each element once *)
Definition orders (sched : Z -> list Z) : Prop := forall m, NoDup (sched m) /\ forall i, In i (sched m) <-> 0 <= i < m.
(** grids on which the lines can be exchanged (C23): one rank, or a number of ranks that divides the first of the other sides *)
Definition can_transform (g : grid) (mu : nat) : Prop :=
  nranks g = 1 \/ Z.rem (glbSize g).[if Nat.eqb mu 0 then 1%nat else 0%nat] (nranks g) = 0.
(** C(x) = 1/V sum_y q(y) q(y+x) *)
Definition correlator (L : list Z) (q : list Z -> R) (x : list Z) : R :=
  (fst (bsum L (fun y => RtoC (q y * q (periodic_add L y x)))) / dft_norm L (fun _ => true))%R.
(** 1/V sum_y q(y) q(x-y) *)
Definition convolution (L : list Z) (q : list Z -> R) (x : list Z) : R :=
  (fst (bsum L (fun y => RtoC (q y * q (periodic_sub L x y)))) / dft_norm L (fun _ => true))%R.
