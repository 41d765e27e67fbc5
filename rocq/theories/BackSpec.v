(** Phases on the links of a periodic lattice. *)
From Coq Require Import Reals.
From Coquelicot Require Import Complex.
From Verif Require Import Base GeometryModel GeometrySpec StapleModel StapleSpec CplxModel MatSpec GaugeSpec.
Open Scope Z_scope.

(** e^{it} *)
Definition expi (t : R) : C := (cos t, sin t).
(** the product of the links met leaving from x and making n steps in direction mu *)
Fixpoint line (G : list Z) (U : list Z -> nat -> cmat) (x : list Z) (mu n : nat) : cmat :=
  match n with O => mid | S n => mmul (U x mu) (line G U (step G x mu) mu n) end.
(** the same, of a field of numbers *)
Fixpoint u1_line (G : list Z) (S : list Z -> nat -> C) (x : list Z) (mu n : nat) : C :=
  match n with O => RtoC 1 | Datatypes.S n => (S x mu * u1_line G S (step G x mu) mu n)%C end.
(** and around a plaquette *)
Definition u1_plaquette (G : list Z) (S : list Z -> nat -> C) (x : list Z) (mu nu : nat) : C :=
  (S x mu * S (step G x mu) nu * Cconj (S x nu * S (step G x nu) mu))%C.
(** all the links are multiplied by a phase which depends on the direction *)
Definition with_phases (c : nat -> C) (U U' : list Z -> nat -> cmat) (G : list Z) : Prop :=
  forall x mu, in_box x G -> (mu < 4)%nat -> meq (U' x mu) (mscale (c mu) (U x mu)).
(** the links of a rank with index below n multiplied by phases, the others left alone *)
Definition entry_times (c : nat -> C) (n : Z) (conf conf' : @qfield cmat) : Prop := forall i mu,
  (0 <= i < n -> (mu < 4)%nat -> match conf i mu with Some V => exists V', conf' i mu = Some V' /\ meq V' (mscale (c mu) V) | None => conf' i mu = None end) /\
  (~ (0 <= i < n /\ (mu < 4)%nat) -> conf' i mu = conf i mu).
(** the sites of a rank, possibly with those of its borders and of its edges *)
Definition nsites (g : grid) (b e : bool) : Z := locVol g + (if b then bordVol g else 0) + (if e then edgeVol g else 0).
