(** The staples of a link of the periodic lattice. *)
From Verif Require Import Base GeometryModel GeometrySpec.

Section Staples.
Context {T : Type} (mul muldag dagmul add : T -> T -> T) (G : list Z) (U : list Z -> nat -> T).
Definition step (x : list Z) (mu : nat) : list Z := periodic_shift G x mu 1.
Definition back (x : list Z) (mu : nat) : list Z := periodic_shift G x mu (-1).
(** U_nu(x) U_mu(x+nu) U_nu(x+mu)^dag *)
Definition fw_of (x : list Z) (mu nu : nat) : T := muldag (mul (U x nu) (U (step x nu) mu)) (U (step x mu) nu).
(** U_nu(x-nu)^dag U_mu(x-nu) U_nu(x-nu+mu) *)
Definition bw_of (x : list Z) (mu nu : nat) : T := mul (dagmul (U (back x nu) nu) (U (back x nu) mu)) (U (step (back x nu) mu) nu).
(** the three directions different from mu, in increasing order *)
Definition other_dirs (mu : nat) : list nat := filter (fun nu => negb (Nat.eqb nu mu)) dirs.
(** three backward and three forward staples, summed in this order *)
Definition staples_of (x : list Z) (mu : nat) : list T := map (bw_of x mu) (other_dirs mu) ++ map (fw_of x mu) (other_dirs mu).
Definition sum_of (l : list T) : option T := match l with [] => None | a :: l => Some (fold_left add l a) end.
End Staples.
