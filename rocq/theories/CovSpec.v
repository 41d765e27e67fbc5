(** Covariant translations and what is made with them.  Fields, scalar product, lattices and changes of gauge are those of TmSpec. *)
From Coq Require Import Reals List ZArith.
From Coquelicot Require Import Complex.
From Verif Require Import MatSpec TmModel TmSpec.
Import ListNotations.
Open Scope C_scope.

Section S.
Variables (nup ndw : nat -> nat -> nat) (U : nat -> nat -> cmat).
(** (T f)(x) = U_mu(x) f(x+mu), and (T' f)(x) = U_mu(x-mu)^dag f(x-mu) *)
Definition transl (mu : nat) (f : sfield) : sfield := fun x s => mvec (U x mu) (f (nup x mu) s).
Definition transl' (mu : nat) (f : sfield) : sfield := fun x s => mvec (dag (U (ndw x mu) mu)) (f (ndw x mu) s).
Definition ssub (f g : sfield) : sfield := sadd f (sscale (RtoC (-1)) g).
Definition szero : sfield := fun _ _ _ => RtoC 0.
(** sum of F mu on the directions in the set *)
Definition sum_dirs (dirs : nat -> bool) (F : nat -> sfield) : sfield := fun x s c => csum 4 (fun mu => if dirs mu then F mu x s c else RtoC 0).
(** sum_mu [T + T' - 2] *)
Definition lapl (dirs : nat -> bool) (f : sfield) : sfield := sum_dirs dirs (fun mu => ssub (sadd (transl mu f) (transl' mu f)) (sscale (RtoC 2) f)).
(** symmetric derivative (T - T')/2 *)
Definition symd (mu : nat) (f : sfield) : sfield := sscale (RtoC (1 / 2)) (ssub (transl mu f) (transl' mu f)).
(** sum_mu (T^2 + T'^2 - 2)/4 *)
Definition lapl2 (dirs : nat -> bool) (f : sfield) : sfield :=
  sum_dirs dirs (fun mu => sscale (RtoC (1 / 4)) (ssub (sadd (transl mu (transl mu f)) (transl' mu (transl' mu f))) (sscale (RtoC 2) f))).
(** one step of the gaussian smearing: (1 + sum_i kappa_i (T_i + T'_i)) / (1 + 2 sum_i kappa_i), on the spatial directions *)
Definition smear1 (kappa : nat -> R) (f : sfield) : sfield :=
  sscale (RtoC (/ (1 + 2 * (kappa 1%nat + kappa 2%nat + kappa 3%nat))))
    (sadd f (sum_dirs (fun mu => negb (Nat.eqb mu 0)) (fun mu => sscale (RtoC (kappa mu)) (sadd (transl mu f) (transl' mu f))))).
End S.
(** links in the group *)
Definition ulinks (n : nat) (U : nat -> nat -> cmat) : Prop := forall x mu, (x < n)%nat -> (mu < 4)%nat -> unitary (U x mu) .
