(** Gauge transformations, and what it means to fix the Landau or the Coulomb gauge. *)
From Coq Require Import Reals.
From Coquelicot Require Import Coquelicot.
From Verif Require Import Base GeometryModel GeometrySpec ChecksumSpec StapleSpec CplxModel MatSpec GaugeSpec.
Open Scope Z_scope.

(** the directions which count: all of them for Landau (first=0), those of space for Coulomb (first=1) *)
Definition fixed_dirs (first : nat) : list nat := filter (fun mu => Nat.leb first mu) dirs.
(** - sum of Re tr U on the links of these directions: the functional to be made minimal moving along the gauge orbit *)
Definition functional (G : list Z) (U : list Z -> nat -> cmat) (first : nat) : R :=
  (- lsum (fun x => lsum (fun mu => re_tr (U x mu)) (fixed_dirs first)) (all_coords G))%R.
(** a path of matrices, leaving at t=0 from the identity along the matrices A *)
Definition leaves (G : list Z) (Om : R -> list Z -> cmat) (A : list Z -> cmat) : Prop :=
  forall x, in_box x G -> meq (Om 0%R x) mid /\ mat_derive (fun s => Om s x) 0%R (A x).
(** matrices of the algebra of SU(3), one on each site *)
Definition algebra (G : list Z) (A : list Z -> cmat) : Prop := forall x, in_box x G -> anti_hermitian (A x) /\ trace (A x) = RtoC 0.
(** D is (minus) the gradient of the functional: along every path the derivative is - sum_x Re tr (A D) *)
Definition minus_gradient (G : list Z) (U : list Z -> nat -> cmat) (first : nat) (D : list Z -> cmat) : Prop :=
  algebra G D /\
  forall Om A, leaves G Om A -> algebra G A ->
    is_derive (fun s => functional G (transformed G (Om s) U) first) 0%R (- lsum (fun x => re_tr (mmul (A x) (D x))) (all_coords G))%R.
(** no path of gauge transformations changes the functional at first order *)
Definition stationary (G : list Z) (U : list Z -> nat -> cmat) (first : nat) : Prop :=
  forall Om A, (forall t x, in_box x G -> unitary (Om t x)) -> leaves G Om A -> algebra G A ->
    is_derive (fun s => functional G (transformed G (Om s) U) first) 0%R 0%R.
