(** What the staggered operator has to do. *)
From Coq Require Import Reals List.
From Coquelicot Require Import Complex.
From Verif Require Import CplxModel MatSpec.
Import ListNotations.
Open Scope C_scope.

(** colours on the sites of one parity, the links [U p x mu] leaving the site x of parity p, and what is found in the memory *)
Definition cfield := nat -> cvec.
Definition links := nat -> nat -> nat -> cmat.
Definition fld (m : mem) (a : path) : cfield := fun x => vec m a@[x].
Definition lks (m : mem) (conf : path) : links := fun p x mu => mat m conf@[p]@[x]@[mu].
Definition feq (n : nat) (f g : cfield) : Prop := forall x, (x < n)%nat -> veq (f x) (g x).
Definition fcomb (a : R) (f : cfield) (b : R) (g : cfield) : cfield := fun x i => a * f x i + b * g x i.

(** different objects: nothing of the one is in the other *)
Definition apart (a b : path) : Prop := forall l l' : list nat, l ++ a <> l' ++ b.
(** an order of visit of n sites *)
Definition order (n : nat) (ks : list nat) : Prop := NoDup ks /\ forall k, In k ks <-> (k < n)%nat.
(** the operation puts in the field [out] the value [v] of the memory before, and changes only that and its local variables [loc] *)
Definition sets_fld_loc (loc : path -> Prop) (n : nat) (o : mem -> mem) (out : path) (v : mem -> cfield) : Prop :=
  forall m, feq n (fld (o m) out) (v m) /\
    forall q, (forall x, (x < n)%nat -> ~ in_vec out@[x] q) -> ~ loc q -> o m q = m q.
Definition sets_fld := sets_fld_loc (fun _ => False).

(** lattice with n sites for each parity: going up and then down, or down and then up, comes back *)
Definition lattice (n : nat) (nup ndw : nat -> nat -> nat -> nat) : Prop :=
  forall p x mu, (p < 2)%nat -> (x < n)%nat -> (mu < 4)%nat ->
    (nup p x mu < n)%nat /\ (ndw p x mu < n)%nat /\ ndw (1 - p)%nat (nup p x mu) mu = x /\ nup (1 - p)%nat (ndw p x mu) mu = x.

Section Hop.
Variables (nup ndw : nat -> nat -> nat -> nat) (U : links).
(** from the sites of parity 1-p to those of parity p: sum on the directions of U_mu(x) f(x+mu) - U_mu(x-mu)^dag f(x-mu) *)
Definition hop (p : nat) (f : cfield) : cfield := fun x i =>
  csum 4 (fun mu => mvec (U p x mu) (f (nup p x mu)) i - mvec (dag (U (1 - p)%nat (ndw p x mu) mu)) (f (ndw p x mu)) i).
(** D = m + hop/2 acting on an even and an odd field, for the parity p; [s]=-1 gives D^dag *)
Definition stD (s m : R) (p : nat) (f : nat -> cfield) : cfield := fcomb m (f p) (s / 2) (hop p (f (1 - p)%nat)).
(** m2 - hop hop/4 on the even sites *)
Definition stD2ee (m2 : R) (f : cfield) : cfield := fcomb m2 f (- / 4) (hop 0 (hop 1 f)).
End Hop.

(** scalar product of two fields, antilinear in the first *)
Definition sdot (n : nat) (f g : cfield) : C := csum n (fun x => csum 3 (fun i => Cconj (f x i) * g x i)).
(** the same for fields on both parities *)
Definition dot2 (n : nat) (f g : nat -> cfield) : C := sdot n (f 0%nat) (g 0%nat) + sdot n (f 1%nat) (g 1%nat).
(** change of gauge *)
Definition gauged_links (nup : nat -> nat -> nat -> nat) (g : nat -> nat -> cmat) (U : links) : links :=
  fun p x mu => mmul (g p x) (mmul (U p x mu) (dag (g (1 - p)%nat (nup p x mu)))).
Definition gauged (g : nat -> cmat) (f : cfield) : cfield := fun x => mvec (g x) (f x).
