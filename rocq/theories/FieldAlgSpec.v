(** Sums over ranks, sites and degrees of freedom. *)
From Coq Require Import Reals.
From Verif Require Import Base ParModel.
Open Scope Z_scope.

Definition sumR (l : list R) : R := fold_right Rplus 0%R l.
(** sum over all the components of the products of the two fields at p and q *)
Definition dot (ix : Z -> Z -> Z) (nDeg nSites p q : Z) (ranks : list (mem R)) : R :=
  sumR (map (fun m => sumR (map (fun s => sumR (map (fun d => (m (p + ix s d)%Z * m (q + ix s d)%Z)%R) (seqZ nDeg))) (seqZ nSites))) ranks).

(** the field at p occupies the addresses p + ix s d, for site in the bulk *)
Definition occupies (ix : Z -> Z -> Z) (nDeg nSites p a : Z) : Prop := exists s d, 0 <= s < nSites /\ 0 <= d < nDeg /\ a = p + ix s d.
Definition disjoint (ix : Z -> Z -> Z) (nDeg nSites : Z) (p q : Z) : Prop :=
  forall a, occupies ix nDeg nSites p a -> ~ occupies ix nDeg nSites q a.
(** buffers with one component per site *)
Definition occupies1 (nSites b a : Z) : Prop := exists s, 0 <= s < nSites /\ a = b + s.
