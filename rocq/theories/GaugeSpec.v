(** Plaquette and Wilson action of the links of a periodic lattice, and what a force has to be. *)
From Coq Require Import Reals.
From Coquelicot Require Import Coquelicot.
From Verif Require Import Base GeometryModel GeometrySpec ChecksumSpec StapleSpec CplxModel MatSpec.
Open Scope Z_scope.

(** sum over the elements of a list *)
Definition lsum {A} (f : A -> R) (l : list A) : R := fold_right Rplus 0%R (map f l).

Section Lattice.
(** sides of the lattice, links: the link from x to x+mu *)
Context (G : list Z) (U : list Z -> nat -> cmat).
(** U_mu(x) U_nu(x+mu) (U_nu(x) U_mu(x+nu))^dag *)
Definition plaquette (x : list Z) (mu nu : nat) : cmat := mmul (mmul (U x mu) (U (step G x mu) nu)) (dag (mmul (U x nu) (U (step G x nu) mu))).
Definition re_tr (m : cmat) : R := fst (trace m).
(** the planes with the time, which is direction 0, and those without *)
Definition time_planes : list (nat * nat) := [(0, 1); (0, 2); (0, 3)]%nat.
Definition space_planes : list (nat * nat) := [(1, 2); (1, 3); (2, 3)]%nat.
(** the average, on the sites and on the planes given, of the real part of the trace divided by 3 *)
Definition mean_plaquette (planes : list (nat * nat)) : R :=
  (lsum (fun x => lsum (fun p => re_tr (plaquette x (fst p) (snd p)) / 3) planes) (all_coords G) / (IZR (prodZ G) * INR (length planes)))%R.
(** beta sum_x sum_(mu<nu) (1 - Re tr P_(mu nu)(x)/3) *)
Definition wilson_action (beta : R) : R :=
  (beta * lsum (fun x => lsum (fun p => 1 - re_tr (plaquette x (fst p) (snd p)) / 3) (time_planes ++ space_planes)) (all_coords G))%R.
End Lattice.

(** the links seen from another choice of the bases in colour space *)
Definition transformed (G : list Z) (Om : list Z -> cmat) (U : list Z -> nat -> cmat) : list Z -> nat -> cmat :=
  fun x mu => mmul (mmul (Om x) (U x mu)) (dag (Om (step G x mu))).

(** every entry of the matrix has the derivative given *)
Definition mat_derive (f : R -> cmat) (t : R) (d : cmat) : Prop :=
  forall i j, (i < 3)%nat -> (j < 3)%nat ->
    is_derive (fun s => fst (f s i j)) t (fst (d i j)) /\ is_derive (fun s => snd (f s i j)) t (snd (d i j)).
(** sum over all the links of the lattice *)
Definition link_sum (G : list Z) (f : list Z -> nat -> R) : R := lsum (fun x => lsum (f x) dirs) (all_coords G).
(** half of the trace of the square of the momenta *)
Definition kinetic (G : list Z) (H : list Z -> nat -> cmat) : R := link_sum G (fun x mu => norm2 (H x mu) / 2)%R.
