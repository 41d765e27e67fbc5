(** The twisted mass Wilson operator D = 1/(2 kappa) + i mu gamma5 - 1/2 sum_mu a_mu [(1-gamma_mu) U_mu(x) psi(x+mu) + (1+gamma_mu) U_mu(x-mu)^dag psi(x-mu)]. *)
From Coq Require Import Reals List.
From Coquelicot Require Import Complex.
From Verif Require Import MatSpec DiracModel DiracSpec TmModel.
From Verif Require StagSpec.
Import ListNotations.
Open Scope C_scope.

(** site, spin, colour *)
Definition sfield := nat -> nat -> cvec.
Definition seq_ (n : nat) (f g : sfield) : Prop := forall x, (x < n)%nat -> forall s, (s < 4)%nat -> veq (f x s) (g x s).
Notation "f =[ n ]= g" := (seq_ n f g) (at level 70, n at level 0).
(** the gamma matrix of the direction mu and gamma5, acting on the spin *)
Definition zero_matr : dirac_matr := init_dirac 0 0 0 0 0 0 0 0 0 0 0 0.
Definition gam (mu : nat) : dmat := den (base_gamma zero_matr (iGammaOfMu mu)).
Definition gam5 : dmat := den (base_gamma zero_matr 5).
Definition spin (g : dmat) (v : nat -> cvec) : nat -> cvec := fun s c => csum 4 (fun t => g s t * v t c).
Definition g5 (f : sfield) : sfield := fun x => spin gam5 (f x).
Definition sadd (f g : sfield) : sfield := fun x s c => f x s c + g x s c.
Definition sscale (a : C) (f : sfield) : sfield := fun x s c => a * f x s c.

(** sum on the directions, each with its factor; [Ub x mu] is the link from x-mu to x *)
Definition hops (nup ndw : nat -> nat -> nat) (a : nat -> R) (Uf Ub : nat -> nat -> cmat) (f : sfield) : sfield := fun x s c =>
  csum 4 (fun mu => a mu * (spin (dsub did (gam mu)) (fun t => mvec (Uf x mu) (f (nup x mu) t)) s c
                          + spin (dadd did (gam mu)) (fun t => mvec (dag (Ub x mu)) (f (ndw x mu) t)) s c)).
(** anisotropy: the spatial directions have the factor given, if any *)
Definition factor (anis : option R) (mu : nat) : R := match anis, mu with Some a, S _ => a | _, _ => 1%R end.
(** 1/(2 kappa) + i mu gamma5 *)
Definition diag (kappa mu : R) (f : sfield) : sfield := sadd (sscale (1 / (2 * kappa))%R f) (sscale (Ci * mu) (g5 f)).
(** its inverse: (1/(2 kappa) - i mu gamma5) / (1/(2 kappa)^2 + mu^2) *)
Definition inv_diag (kappa mu : R) (f : sfield) : sfield := sscale (/ ((1 / (2 * kappa)) * (1 / (2 * kappa)) + mu * mu))%R (diag kappa (- mu) f).

(** on the whole lattice *)
Definition hop_lx (nup ndw : nat -> nat -> nat) (U : nat -> nat -> cmat) (anis : option R) : sfield -> sfield :=
  hops nup ndw (factor anis) U (fun x mu => U (ndw x mu) mu).
Definition tmD (nup ndw : nat -> nat -> nat) (U : nat -> nat -> cmat) (kappa : R) (anis : option R) (mu : R) (f : sfield) : sfield :=
  sadd (diag kappa mu f) (sscale (-(1 / 2))%R (hop_lx nup ndw U anis f)).
Definition tmQ nup ndw U kappa anis mu f := g5 (tmD nup ndw U kappa anis mu f).

(** from the sites of parity 1-p to those of parity p *)
Definition hop_eo (nup ndw : nat -> nat -> nat -> nat) (U : StagSpec.links) (anis : option R) (p : nat) : sfield -> sfield :=
  hops (nup p) (ndw p) (factor anis) (U p) (fun x mu => U (1 - p)%nat (ndw p x mu) mu).
(** D on an even and an odd field, on the sites of parity p *)
Definition tmD_eo nup ndw (U : StagSpec.links) (kappa : R) (anis : option R) (mu : R) (p : nat) (f : nat -> sfield) : sfield :=
  sadd (diag kappa mu (f p)) (sscale (-(1 / 2))%R (hop_eo nup ndw U anis p (f (1 - p)%nat))).
(** gamma5 (D_oo - D_oe D_ee^-1 D_eo), on the odd sites *)
Definition Koo nup ndw (U : StagSpec.links) (kappa : R) (anis : option R) (mu : R) (f : sfield) : sfield :=
  g5 (sadd (diag kappa mu f) (sscale (-(1 / 4))%R (hop_eo nup ndw U anis 1 (inv_diag kappa mu (hop_eo nup ndw U anis 0 f))))).

(** source of the equation on the odd sites: eta_o - D_oe D_ee^-1 eta_e *)
Definition schur_rhs nup ndw (U : StagSpec.links) (kappa : R) (anis : option R) (mu : R) (se so : sfield) : sfield :=
  sadd so (sscale (1 / 2)%R (hop_eo nup ndw U anis 1 (inv_diag kappa mu se))).

(** scalar product, antilinear in the first *)
Definition sdot (n : nat) (f g : sfield) : C := csum n (fun x => csum 4 (fun s => csum 3 (fun c => Cconj (f x s c) * g x s c))).
Definition norm2 (n : nat) (f : sfield) : R := fst (sdot n f f).
(** a lattice with n sites *)
Definition lattice_lx (n : nat) (nup ndw : nat -> nat -> nat) : Prop :=
  forall x mu, (x < n)%nat -> (mu < 4)%nat -> (nup x mu < n)%nat /\ (ndw x mu < n)%nat /\ ndw (nup x mu) mu = x /\ nup (ndw x mu) mu = x.
(** change of gauge *)
Definition gauged_lx (nup : nat -> nat -> nat) (g : nat -> cmat) (U : nat -> nat -> cmat) : nat -> nat -> cmat :=
  fun x mu => mmul (g x) (mmul (U x mu) (dag (g (nup x mu)))).
Definition gauged_s (g : nat -> cmat) (f : sfield) : sfield := fun x s => mvec (g x) (f x s).

(** [o] puts in the n sites of the object [out] the value [v] of the memory before, and changes nothing else *)
Definition sets_obj (n : nat) (o : smem -> smem) (out : nat) (v : smem -> sfield) : Prop :=
  forall m, o m out =[n]= v m /\ (forall a x, a <> out \/ (n <= x)%nat -> o m a x = m a x).
(** numbering of the sites of a lattice with n sites for each parity: the parity and the even-odd number of the site, and the site with a given parity and number *)
Definition eo_tables (n : nat) (nupx ndwx : nat -> nat -> nat) (nup ndw : nat -> nat -> nat -> nat) (par eo : nat -> nat) (lx : nat -> nat -> nat) : Prop :=
  (forall x, (x < 2 * n)%nat -> (par x < 2)%nat /\ (eo x < n)%nat /\ lx (par x) (eo x) = x) /\
  (forall p k, (p < 2)%nat -> (k < n)%nat -> (lx p k < 2 * n)%nat /\ par (lx p k) = p /\ eo (lx p k) = k) /\
  (forall p k mu, (p < 2)%nat -> (k < n)%nat -> (mu < 4)%nat -> nupx (lx p k) mu = lx (1 - p)%nat (nup p k mu) /\ ndwx (lx p k) mu = lx (1 - p)%nat (ndw p k mu)).
