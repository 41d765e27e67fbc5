(** The free gauge field: the quadratic part of the action of plaquettes and rectangles, for a plane wave of momentum k. *)
From Coq Require Import Reals List ZArith.
From Coquelicot Require Import Complex.
From Verif Require Import CplxModel MatSpec DiracSpec SpinSpec BackSpec FreeTmSpec GluonModel.
Import ListNotations.
Open Scope C_scope.

(** the potential of the plane wave is A_mu = a_mu exp(i k.y) where y is the middle of the link.  The oriented sum along a path which starts at phase t *)
Inductive step := Fwd (mu : nat) | Bwd (mu : nat).
Fixpoint path_sum (k : nat -> R) (a : nat -> C) (t : R) (p : list step) : C :=
  match p with
  | [] => RtoC 0
  | Fwd mu :: p => a mu * expi (t + k mu / 2) + path_sum k a (t + k mu) p
  | Bwd mu :: p => - (a mu * expi (t - k mu / 2)) + path_sum k a (t - k mu) p
  end.
Definition plaquette (mu nu : nat) : list step := [Fwd mu; Fwd nu; Bwd mu; Bwd nu].
Definition rectangle (mu nu : nat) : list step := [Fwd mu; Fwd mu; Fwd nu; Bwd mu; Bwd mu; Bwd nu].
Definition nrm2 (z : C) : R := (fst z * fst z + snd z * snd z)%R.
(** the quadratic action: coefficient 1-8c1 for each plaquette, c1 for each rectangle (long side in either direction) *)
Definition action (c1 : R) (k : nat -> R) (a : nat -> C) : R :=
  (/ 2 * ((1 - 8 * c1) * rsum 4 (fun mu => rsum 4 (fun nu => if Nat.ltb mu nu then nrm2 (path_sum k a 0 (plaquette mu nu)) else 0))
        + c1 * rsum 4 (fun mu => rsum 4 (fun nu => if Nat.eqb mu nu then 0 else nrm2 (path_sum k a 0 (rectangle mu nu))))))%R.
(** the kinetic operator: the symmetric matrix of that quadratic form *)
Definition kinetic (c1 : R) (k : nat -> R) (K : nat -> nat -> R) : Prop :=
  (forall mu nu, (mu < 4)%nat -> (nu < 4)%nat -> K mu nu = K nu mu) /\
  forall a : nat -> C, action c1 k a = (/ 2 * rsum 4 (fun mu => rsum 4 (fun nu => K mu nu * (fst (a mu) * fst (a nu) + snd (a mu) * snd (a nu)))))%R.
(** the lattice momentum *)
Definition khat (k : nat -> R) (mu : nat) : R := (2 * sin (k mu / 2))%R.
Definition khat2 (k : nat -> R) : R := rsum 4 (fun mu => khat k mu * khat k mu)%R.
Definition khat2_space (k : nat -> R) : R := (khat k 1 * khat k 1 + khat k 2 * khat k 2 + khat k 3 * khat k 3)%R.
Definition dlt (mu nu : nat) : R := if Nat.eqb mu nu then 1%R else 0%R.
(** the modes which the prescription keeps *)
Definition kept (z : zero_mode_sub_t) (x : nat -> Z) : Prop :=
  match z with
  | UNNO_ALEMANNA => exists mu, (1 <= mu < 4)%nat /\ x mu <> 0%Z
  | PECIONA => exists mu, (mu < 4)%nat /\ x mu <> 0%Z
  | ONLY_100 => (x 1%nat + x 2%nat + x 3%nat = 1)%Z
  end.
(** the real matrix in memory *)
Definition Pr (m : mem) (p : path) (mu nu : nat) : R := fst (ss m p mu nu).
(** a current which is conserved: sum_mu khat_mu J_mu = 0 *)
Definition conserved (k : nat -> R) (J : nat -> C) : Prop := csum 4 (fun mu => khat k mu * J mu) = 0.
Definition exchange (P : nat -> nat -> R) (J J' : nat -> C) : C := csum 4 (fun mu => csum 4 (fun nu => Cconj (J mu) * P mu nu * J' nu)).
