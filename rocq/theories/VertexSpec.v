(** The vector vertex of a fermion of Wilson: fields, gamma matrices and operator are those of TmSpec. *)
From Coq Require Import Reals List ZArith.
From Coquelicot Require Import Complex.
From Verif Require Import MatSpec DiracModel DiracSpec TmModel TmSpec.
Open Scope C_scope.

(** sum_mu [ a (G - gamma_mu) A_mu(x) U_mu(x) f(x+mu) + b (G + gamma_mu) A_mu(x-mu) U_mu(x-mu)^dag f(x-mu) ] *)
Definition vertex (nup ndw : nat -> nat -> nat) (U : nat -> nat -> cmat) (a b : C) (G : dmat) (A : nat -> nat -> C) (f : sfield) : sfield := fun x s c =>
  csum 4 (fun mu => a * A x mu * spin (dsub G (gam mu)) (fun t => mvec (U x mu) (f (nup x mu) t)) s c
                  + b * A (ndw x mu) mu * spin (dadd G (gam mu)) (fun t => mvec (dag (U (ndw x mu) mu)) (f (ndw x mu) t)) s c).
(** the field on the time asked (all if -1), zero on the others *)
Definition at_time (time : nat -> Z) (t : Z) (f : sfield) : sfield := fun x s c => if ((t =? -1)%Z || (time x =? t)%Z)%bool then f x s c else RtoC 0.
(** product with a function of the site, and its differences on the links *)
Definition smul (al : nat -> C) (f : sfield) : sfield := fun x s c => al x * f x s c.
Definition diffs (nup : nat -> nat -> nat) (al : nat -> C) : nat -> nat -> C := fun x mu => al (nup x mu) - al x.
(** the same spin matrix in each site *)
Definition sspin (G : dmat) (f : sfield) : sfield := fun x => spin G (f x).
(** -i tau3 gamma5, with tau3 = -1 and 1 *)
Definition twisted (r : nat) : dmat := dscale (Copp Ci * RtoC (if Nat.eqb r 0 then -1 else 1)) gam5.
(** rotation from the twisted to the physical basis: (1 - i tau3 gamma5)/sqrt 2 *)
Definition rotation (r : nat) : dmat := dscale (RtoC (/ sqrt 2)) (dadd did (twisted r)).
