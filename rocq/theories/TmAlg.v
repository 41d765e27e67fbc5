(** Algebra of the twisted mass operator *)
From Coq Require Import Reals Lra Lia List Arith Setoid.
From Coquelicot Require Import Complex.
From Verif Require Import MatSpec MatProofs MatProofs4 MatAlg DiracModel DiracSpec DiracProofs TmModel TmSpec TmProofs.
From Verif Require StagSpec.
From Verif Require Import StagProofs StagAlg StagAlg2.
Import ListNotations.
Open Scope C_scope.
Set Bullet Behavior "Strict Subproofs".
Notation sdot := TmSpec.sdot.

(** ** equality of fields *)
Lemma seq_refl n f : f =[n]= f. Proof. intros x _ s _ c _. reflexivity. Qed.
Lemma seq_sym n f g : f =[n]= g -> g =[n]= f. Proof. intros H x Hx s Hs c Hc. symmetry. apply H; assumption. Qed.
Lemma seq_trans n f g h : f =[n]= g -> g =[n]= h -> f =[n]= h. Proof. intros H K x Hx s Hs c Hc. rewrite H, K by assumption. reflexivity. Qed.
Add Parametric Relation n : sfield (seq_ n) reflexivity proved by (seq_refl n) symmetry proved by (seq_sym n) transitivity proved by (seq_trans n) as seq_rel.
Add Parametric Morphism n : sadd with signature seq_ n ==> seq_ n ==> seq_ n as sadd_mor.
Proof. intros f f' H g g' K x Hx s Hs c Hc. unfold sadd. rewrite H, K by assumption. reflexivity. Qed.
Add Parametric Morphism n a : (sscale a) with signature seq_ n ==> seq_ n as sscale_mor.
Proof. intros f f' H x Hx s Hs c Hc. unfold sscale. rewrite H by assumption. reflexivity. Qed.
Add Parametric Morphism n : g5 with signature seq_ n ==> seq_ n as g5_mor.
Proof. intros f f' H x Hx s Hs c Hc. rewrite !g5_at by exact Hs. rewrite H by assumption. reflexivity. Qed.
Add Parametric Morphism n k mu : (diag k mu) with signature seq_ n ==> seq_ n as diag_mor.
Proof. intros f f' H x Hx s Hs c Hc. rewrite !diag_spec by exact Hs. rewrite H by assumption. reflexivity. Qed.
Add Parametric Morphism n k mu : (inv_diag k mu) with signature seq_ n ==> seq_ n as inv_diag_mor.
Proof. intros f f' H x Hx s Hs c Hc. rewrite !inv_diag_spec by exact Hs. rewrite H by assumption. reflexivity. Qed.

(** ** spins *)
Definition spdot (u w : nat -> cvec) : C := csum 4 (fun s => vdot (u s) (w s)).
Lemma sdot_spdot n f g : sdot n f g = csum n (fun x => spdot (f x) (g x)). Proof. reflexivity. Qed.
Lemma spin_ext g g' v v' s : deq g g' -> (s < 4)%nat -> (forall t, (t < 4)%nat -> veq (v t) (v' t)) -> veq (spin g v s) (spin g' v' s).
Proof. intros H Hs K c Hc. unfold spin. apply csum_ext. intros t Ht. rewrite H, K by assumption. reflexivity. Qed.
Lemma spin_mul g h v s c : spin g (spin h v) s c = spin (dmul g h) v s c.
Proof. unfold spin, dmul. cbn [csum]. ring. Qed.
Lemma spdot_spin u g w : spdot u (spin g w) = spdot (spin (ddag g) u) w.
Proof.
  unfold spdot, vdot, spin, ddag.
  rewrite (csum_ext 4 (fun s => csum 3 (fun i => Cconj (u s i) * csum 4 (fun t => g s t * w t i))) (fun s => csum 4 (fun t => g s t * csum 3 (fun i => Cconj (u s i) * w t i))))
    by (intros s _; cbn [csum]; ring).
  rewrite csum_swap. apply csum_ext. intros t _. cbn [csum]. rewrite ?Cconj_plus, ?Cconj_mult, ?Cconj_conj, ?Cconj_R. ring.
Qed.
Lemma spdot_ext u u' w w' : (forall s, (s < 4)%nat -> veq (u s) (u' s)) -> (forall s, (s < 4)%nat -> veq (w s) (w' s)) -> spdot u w = spdot u' w'.
Proof. intros H K. apply csum_ext. intros s Hs. apply vdot_ext; auto. Qed.
Lemma spdot_col u M w : spdot u (fun t => mvec M (w t)) = spdot (fun t => mvec (dag M) (u t)) w.
Proof. apply csum_ext. intros s _. apply vdot_mvec. Qed.
Lemma spin_col g M v s c : spin g (fun t => mvec M (v t)) s c = mvec M (fun c => spin g v s c) c.
Proof. unfold spin, mvec. cbn [csum]. ring. Qed.
Lemma gam_swap mu : (mu < 4)%nat -> deq (ddag (dmul gam5 (dsub did (gam mu)))) (dmul gam5 (dadd did (gam mu))) /\
  deq (ddag (dmul gam5 (dadd did (gam mu)))) (dmul gam5 (dsub did (gam mu))).
Proof.
  intros H. unfold gam5, gam, base_gamma. change (Nat.ltb 5 16) with true. cbn iota.
  replace (Nat.ltb (iGammaOfMu mu) 16) with true by (destruct mu as [|[|[|[|]]]]; try lia; reflexivity). cbn iota.
  destruct mu as [|[|[|[|]]]]; try lia; clear H; unfold iGammaOfMu; cbn [nth base_gamma_table];
    (split; intros i j Hi Hj; (destruct i as [|[|[|[|]]]]; try lia); (destruct j as [|[|[|[|]]]]; try lia); clear Hi Hj;
     unfold ddag, dmul, den, dsub, dadd, did; cbn [init_dirac pos entr csum Nat.eqb]; apply injective_projections; cbn; ring).
Qed.
(** gamma5 (1-gamma) M is the adjoint of gamma5 (1+gamma) M^dag *)
Lemma spdot_hop g h M u w : deq (ddag (dmul gam5 g)) (dmul gam5 h) ->
  spdot u (spin gam5 (spin g (fun t => mvec M (w t)))) = spdot (spin gam5 (spin h (fun t => mvec (dag M) (u t)))) w.
Proof.
  intros E. rewrite (spdot_ext u u _ (spin (dmul gam5 g) (fun t => mvec M (w t)))); [|intros ? ? ? ?; reflexivity|intros s Hs c Hc; apply spin_mul].
  rewrite spdot_spin, spdot_col. apply spdot_ext; [|intros ? ? ? ?; reflexivity].
  intros s Hs c Hc. rewrite spin_mul, spin_col. apply mvec_ext; [intros ? ? _ _; reflexivity| |exact Hc]. intros k Hk. apply spin_ext; auto. intros ? ? ? ?; reflexivity.
Qed.

(** ** the hopping *)
Section Adj.
Variables (n : nat) (nu nd nu' nd' : nat -> nat -> nat) (Uf Ub Uf' Ub' : nat -> nat -> cmat) (a : nat -> R).
Hypothesis H : forall x mu, (x < n)%nat -> (mu < 4)%nat ->
  (nu x mu < n)%nat /\ (nd x mu < n)%nat /\ nd' (nu x mu) mu = x /\ nu' (nd x mu) mu = x /\ Ub' (nu x mu) mu = Uf x mu /\ Uf' (nd x mu) mu = Ub x mu.
Hypothesis H' : forall x mu, (x < n)%nat -> (mu < 4)%nat -> (nu' x mu < n)%nat /\ (nd' x mu < n)%nat /\ nd (nu' x mu) mu = x /\ nu (nd' x mu) mu = x.
Lemma spin_add g v w s c : spin g (fun t k => v t k + w t k) s c = spin g v s c + spin g w s c.
Proof. unfold spin. cbn [csum]. ring. Qed.
Lemma spdot_add_r u v w : spdot u (fun t k => v t k + w t k) = spdot u v + spdot u w.
Proof. unfold spdot, vdot. cbn [csum]. ring. Qed.
Lemma spdot_add_l u v w : spdot (fun t k => v t k + w t k) u = spdot v u + spdot w u.
Proof. unfold spdot, vdot. cbn [csum]. rewrite ?Cconj_plus. ring. Qed.
Lemma spdot_scal_r u (b : C) v : spdot u (fun t k => b * v t k) = b * spdot u v.
Proof. unfold spdot, vdot. cbn [csum]. ring. Qed.
Lemma spdot_scal_l u (b : C) v : spdot (fun t k => b * v t k) u = Cconj b * spdot v u.
Proof. unfold spdot, vdot. cbn [csum]. rewrite ?Cconj_mult. ring. Qed.
Definition hf (nu : nat -> nat -> nat) (Uf : nat -> nat -> cmat) (f : sfield) mu x := spin gam5 (spin (dsub did (gam mu)) (fun t => mvec (Uf x mu) (f (nu x mu) t))).
Definition hb (nd : nat -> nat -> nat) (Ub : nat -> nat -> cmat) (f : sfield) mu x := spin gam5 (spin (dadd did (gam mu)) (fun t => mvec (dag (Ub x mu)) (f (nd x mu) t))).
Lemma g5_hops f nu0 nd0 Uf0 Ub0 x s c : g5 (hops nu0 nd0 a Uf0 Ub0 f) x s c = csum 4 (fun mu => a mu * (hf nu0 Uf0 f mu x s c + hb nd0 Ub0 f mu x s c)).
Proof.
  unfold g5, hops, hf, hb. unfold spin at 1.
  rewrite (csum_ext 4 _ (fun t => csum 4 (fun mu => a mu * (gam5 s t * spin (dsub did (gam mu)) (fun t => mvec (Uf0 x mu) (f (nu0 x mu) t)) t c +
    gam5 s t * spin (dadd did (gam mu)) (fun t => mvec (dag (Ub0 x mu)) (f (nd0 x mu) t)) t c)))).
  - rewrite csum_swap. apply csum_ext. intros mu _. rewrite csum_scal_l, csum_plus. reflexivity.
  - intros t _. rewrite <- csum_scal_l. apply csum_ext. intros mu _. ring.
Qed.
Lemma sdot_sum_r f (F : nat -> nat -> nat -> cvec) : sdot n f (fun x s c => csum 4 (fun mu => F mu x s c)) = csum 4 (fun mu => csum n (fun x => spdot (f x) (F mu x))).
Proof. rewrite sdot_spdot, csum_swap. apply csum_ext. intros x _. cbn [csum]. rewrite Cplus_0_l, <- !spdot_add_r. apply spdot_ext; [intros ? ? ? ?; reflexivity|]. intros s Hs c Hc. ring. Qed.
Lemma sdot_sum_l f (F : nat -> nat -> nat -> cvec) : sdot n (fun x s c => csum 4 (fun mu => F mu x s c)) f = csum 4 (fun mu => csum n (fun x => spdot (F mu x) (f x))).
Proof. rewrite sdot_spdot, csum_swap. apply csum_ext. intros x _. cbn [csum]. rewrite Cplus_0_l, <- !spdot_add_l. apply spdot_ext; [|intros ? ? ? ?; reflexivity]. intros s Hs c Hc. ring. Qed.
Lemma sdot_ext f f' g g' : f =[n]= f' -> g =[n]= g' -> sdot n f g = sdot n f' g'.
Proof. intros E K. rewrite !sdot_spdot. apply csum_ext. intros x Hx. apply spdot_ext; auto. Qed.
Lemma hops_adj f g : sdot n f (g5 (hops nu nd a Uf Ub g)) = sdot n (g5 (hops nu' nd' a Uf' Ub' f)) g.
Proof.
  rewrite (sdot_ext f f _ (fun x s c => csum 4 (fun mu => a mu * (hf nu Uf g mu x s c + hb nd Ub g mu x s c)))) by (reflexivity || (intros x _ s _ c _; apply g5_hops)).
  rewrite (sdot_ext _ (fun x s c => csum 4 (fun mu => a mu * (hf nu' Uf' f mu x s c + hb nd' Ub' f mu x s c))) g g) by (reflexivity || (intros x _ s _ c _; apply g5_hops)).
  rewrite (sdot_sum_r f (fun mu x s c => a mu * (hf nu Uf g mu x s c + hb nd Ub g mu x s c))), (sdot_sum_l g (fun mu x s c => a mu * (hf nu' Uf' f mu x s c + hb nd' Ub' f mu x s c))).
  apply csum_ext. intros mu Hmu.
  transitivity (csum n (fun x => RtoC (a mu) * (spdot (f x) (hf nu Uf g mu x) + spdot (f x) (hb nd Ub g mu x))));
    [apply csum_ext; intros x Hx; cbv beta; rewrite spdot_scal_r, spdot_add_r; reflexivity|].
  transitivity (csum n (fun x => RtoC (a mu) * (spdot (hf nu' Uf' f mu x) (g x) + spdot (hb nd' Ub' f mu x) (g x))));
    [|apply csum_ext; intros x Hx; cbv beta; rewrite spdot_scal_l, spdot_add_l, Cconj_R; reflexivity].
  rewrite !csum_scal_l, !csum_plus. f_equal. rewrite Cplus_comm. f_equal.
  - rewrite <- (csum_reindex n (fun x => nd x mu) (fun y => nu' y mu) (fun y => spdot (hf nu' Uf' f mu y) (g y))).
    + apply csum_ext. intros x Hx. destruct (H x mu Hx Hmu) as (_ & _ & _ & E1 & _ & E2). unfold hf, hb. rewrite E1, E2.
      rewrite (spdot_hop (dadd did (gam mu)) (dsub did (gam mu))) by (apply gam_swap; exact Hmu).
      apply spdot_ext; [|intros ? ? ? ?; reflexivity]. intros s Hs c Hc. apply spin_ext; auto; [intros ? ? ? ?; reflexivity|]. intros t Ht. apply spin_ext; auto; [intros ? ? ? ?; reflexivity|].
      intros t' _ c' Hc'. unfold mvec, dag. cbn [csum]. rewrite !Cconj_conj. reflexivity.
    + intros x Hx. destruct (H x mu Hx Hmu) as (_ & ? & _ & ? & _). auto.
    + intros y Hy. destruct (H' y mu Hy Hmu) as (? & _ & ? & _). auto.
  - rewrite <- (csum_reindex n (fun x => nu x mu) (fun y => nd' y mu) (fun y => spdot (hb nd' Ub' f mu y) (g y))).
    + apply csum_ext. intros x Hx. destruct (H x mu Hx Hmu) as (_ & _ & E1 & _ & E2 & _). unfold hf, hb. rewrite E1, E2.
      apply spdot_hop. apply gam_swap; exact Hmu.
    + intros x Hx. destruct (H x mu Hx Hmu) as (? & _ & ? & _). auto.
    + intros y Hy. destruct (H' y mu Hy Hmu) as (_ & ? & _ & ?). auto.
Qed.
End Adj.
