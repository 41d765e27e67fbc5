(** The twisted mass quark of the free theory: the Dirac operator in momentum space. *)
From Coq Require Import Reals List ZArith.
From Coquelicot Require Import Complex.
From Verif Require Import CplxModel DiracModel MatSpec DiracSpec SpinSpec FreeTmModel.
Open Scope C_scope.

Definition junk0 : dirac_matr := DM (fun _ => O) (fun _ => RtoC 0).
(** the gamma matrix of the direction mu, and gamma5 (C72) *)
Definition gam (mu : nat) : dmat := den (base_gamma junk0 (iGammaOfMu mu)).
Definition gam5 : dmat := den (base_gamma junk0 5).
(** sum_mu s_mu gamma_mu *)
Definition slash (s : nat -> C) : dmat := fun i j => csum 4 (fun mu => s mu * gam mu i j).
(** the operator of mass m, twist tau (+1 or -1) and Wilson mass M, as a function of the sines s of the four components of the momentum:
    in the base of the Wilson operator M + i s-slash + i tau m gamma5, in the one at maximal twist m + i s-slash - i tau M gamma5 *)
Definition Dtm (base : tm_basis_t) (tau m M : R) (s : nat -> C) : dmat :=
  match base with
  | WILSON_BASE => fun i j => M * did i j + Ci * slash s i j + Ci * RtoC (tau * m) * gam5 i j
  | MAX_TWIST_BASE => fun i j => m * did i j + Ci * slash s i j - Ci * RtoC (tau * M) * gam5 i j
  end.
(** 1/(2 kappa) - sum_mu cos p_mu *)
Definition rsum (n : nat) (f : nat -> R) : R := List.fold_right (fun k a => (f k + a)%R) 0%R (List.seq 0 n).
Definition wilson_mass (kappa : R) (cosp : nat -> R) : R := (/ (2 * kappa) - rsum 4 cosp)%R.
(** the momentum of the integer coordinates x, with the phases theta at the boundary *)
Definition mom (L : nat -> Z) (theta : nat -> R) (x : nat -> Z) (mu : nat) : R := (2 * PI * (IZR (x mu) + theta mu / 2) / IZR (L mu))%R.
Definition Dfree (L : nat -> Z) (qu : TmQuarkInfo) (x : nat -> Z) (base : tm_basis_t) : dmat :=
  let p := mom L (bc qu) x in
  Dtm base (if Nat.eqb (r qu) 0 then -1 else 1) (mass qu) (wilson_mass (kappa qu) (fun mu => cos (p mu))) (fun mu => RtoC (sin (p mu))).
(** no mass, no twist, periodic, null momentum, up to the tolerance of the program *)
Definition zero_mode (qu : TmQuarkInfo) (x : nat -> Z) : Prop :=
  (Rabs (mass qu) < / 10 ^ 14 /\ Rabs (kappa qu - 1 / 8) < / 10 ^ 14)%R /\ forall mu, (mu < 4)%nat -> (Rabs (bc qu mu) < / 10 ^ 14)%R /\ x mu = 0%Z.
(** the table of the gamma matrices is in memory at [bg]; that of the eigenvectors of gamma_0 at [eig] *)
Definition gammas_at (bg : path) (m : mem) : Prop := forall k i, (k < 16)%nat -> (i < 4)%nat -> m bg@[k]@[i] = entr (base_gamma junk0 k) i.
Definition eig_at (eig : path) (m : mem) : Prop := forall a s i, (a < 2)%nat -> (s < 2)%nat -> (i < 4)%nat -> m eig@[a]@[s]@[i] = ompg0_eig a s i.

(** *** on shell: p_0 = i e *)
(** the Wilson mass with cos p_0 = cosh e *)
Definition shell_mass (L : nat -> Z) (qu : TmQuarkInfo) (x : nat -> Z) (e : R) : R :=
  wilson_mass (kappa qu) (fun mu => if Nat.eqb mu 0 then cosh e else cos (mom L (bc qu) x mu)).
(** sin p_0 = i sinh e *)
Definition shell_sin (L : nat -> Z) (theta : nat -> R) (x : nat -> Z) (e : R) : nat -> C :=
  fun mu => if Nat.eqb mu 0 then Ci * sinh e else RtoC (sin (mom L theta x mu)).
(** the Dirac operator on shell with energy e *)
Definition Dshell (L : nat -> Z) (qu : TmQuarkInfo) (x : nat -> Z) (base : tm_basis_t) (e : R) : dmat :=
  Dtm base (if Nat.eqb (r qu) 0 then -1 else 1) (mass qu) (shell_mass L qu x e) (shell_sin L (bc qu) x e).
(** the dispersion relation: sum_mu sin^2 p_mu + M^2 + m^2 = 0 at p_0 = i e *)
Definition on_shell (L : nat -> Z) (qu : TmQuarkInfo) (x : nat -> Z) (e : R) : Prop :=
  (- (sinh e)^2 + ((sin (mom L (bc qu) x 1))^2 + (sin (mom L (bc qu) x 2))^2 + (sin (mom L (bc qu) x 3))^2) + (shell_mass L qu x e)^2 + (mass qu)^2 = 0)%R.
(** v^dag w *)
Definition sprod (v w : nat -> C) : C := csum 4 (fun i => Cconj (v i) * w i).
