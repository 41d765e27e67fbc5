(** C100: insertion of a vector vertex: tadpole, photon and conserved current *)
From Coq Require Import Reals Lra Lia List Arith ZArith Setoid.
From Coquelicot Require Import Complex.
From Verif Require Import MatSpec MatAlg DiracModel DiracSpec DiracProofs TmModel TmSpec TmProofs CovModel CovSpec CovProofs VertexModel VertexSpec VertexProofs.
From Verif Require StagSpec.
From Verif Require Import MatProofs MatProofs4 StagProofs StagAlg StagAlg2 TmAlg TmAlg2 VertexAlg.
Import ListNotations.
Open Scope C_scope.
Set Bullet Behavior "Strict Subproofs".
Notation sdot := TmSpec.sdot.

(** C100: each routine computes its vertex, with the factors of each and 1 or -i tau3 gamma5, on the time asked and zero on the others, for any order of the sites; nothing else changes *)
Theorem C100_routines : forall n sched nup ndw conf junk time l out inp t r (tad : nat -> R) (curr : nat -> nat -> C) (dirs : nat -> bool), (forall l, StagSpec.order n (sched l)) -> lattice_lx n nup ndw -> out <> inp -> (r < 2)%nat ->
  let sets (o : smem -> smem) (a b : C) (G : dmat) (A : nat -> nat -> C) := sets_obj n o out (fun m => at_time time t (vertex nup ndw conf a b G A (m inp))) in
  let photon := fun (x mu : nat) => if dirs mu then curr x mu else RtoC 0 in
  let one := fun (_ mu : nat) => if dirs mu then RtoC 1 else RtoC 0 in
  (forall a b GAMMA A, valid GAMMA -> sets (insert_vector_vertex sched nup ndw conf junk time l out inp a b GAMMA A t) a b (den GAMMA) A) /\
  sets (insert_Wilson_tadpole sched nup ndw conf junk time l out inp tad t) (RtoC (- (1 / 4))) (RtoC (- (1 / 4))) did (fun _ mu => RtoC (tad mu)) /\
  sets (insert_tm_tadpole sched nup ndw conf junk time l out inp r tad t) (RtoC (- (1 / 4))) (RtoC (- (1 / 4))) (twisted r) (fun _ mu => RtoC (tad mu)) /\
  sets (insert_Wilson_external_source sched nup ndw conf junk time l out curr inp dirs t) (Copp Ci * RtoC (1 / 2)) (Ci * RtoC (1 / 2)) did photon /\
  sets (insert_tm_external_source sched nup ndw conf junk time l out curr inp r dirs t) (Copp Ci * RtoC (1 / 2)) (Ci * RtoC (1 / 2)) (twisted r) photon /\
  sets (insert_Wilson_conserved_current sched nup ndw conf junk time l out inp dirs t) (RtoC (- (1 / 2))) (RtoC (1 / 2)) did one /\
  sets (insert_tm_conserved_current sched nup ndw conf junk time l out inp r dirs t) (RtoC (- (1 / 2))) (RtoC (1 / 2)) (twisted r) one.
Proof.
  intros n sched nup ndw conf junk time l out inp t r tad curr dirs Hs L Hd Hr sets photon one.
  assert (E1 : (0, - (1 / 2))%R = Copp Ci * RtoC (1 / 2)) by (apply injective_projections; cbn; ring).
  assert (E2 : (0, 1 / 2)%R = Ci * RtoC (1 / 2)) by (apply injective_projections; cbn; ring).
  destruct (id_den junk) as [V0 D0], (tm_den junk r Hr) as [V5 D5].
  assert (K : forall a b GAMMA G A A', valid GAMMA -> deq (den GAMMA) G -> (forall x mu, A x mu = A' x mu) -> sets (insert_vector_vertex sched nup ndw conf junk time l out inp a b GAMMA A t) a b G A').
  { intros a b GAMMA G A A' V D HA. unfold sets. eapply sets_ext; [apply vertex_ok; assumption|]. intros m. apply at_ext. apply (vertex_ext n); assumption. }
  assert (P : forall (x mu : nat), (if negb (dirs mu) then RtoC 0 else curr x mu) = photon x mu) by (intros x mu; unfold photon; destruct (dirs mu); reflexivity).
  assert (O : forall (x mu : nat), RtoC (if dirs mu then 1 else 0) = one x mu) by (intros x mu; unfold one; destruct (dirs mu); reflexivity).
  split; [intros; apply K; [assumption|reflexivity|reflexivity]|].
  split; [apply K; auto|]. split; [apply K; auto|].
  rewrite <- E1, <- E2. split; [apply K; auto|]. split; [apply K; auto|]. split; apply K; auto.
Qed.
Print Assumptions C100_routines.

(** C100: the insertions at each time add up to the insertion at all the times *)
Theorem C100_times : forall n sched nup ndw conf junk time l out inp a b GAMMA A T m, (forall l, StagSpec.order n (sched l)) -> lattice_lx n nup ndw -> out <> inp -> valid GAMMA ->
  (forall x, (x < n)%nat -> (0 <= time x < Z.of_nat T)%Z) ->
  let ins t := insert_vector_vertex sched nup ndw conf junk time l out inp a b GAMMA A t m out in
  (fun x s c => csum T (fun t => ins (Z.of_nat t) x s c)) =[n]= ins (-1)%Z.
Proof.
  intros n sched nup ndw conf junk time l out inp a b GAMMA A T m Hs L Hd V HT ins x Hx s Hs0 c Hc.
  assert (E : forall t, ins t x s c = at_time time t (vertex nup ndw conf a b (den GAMMA) A (m inp)) x s c) by (intros t; apply (vertex_ok n sched Hs nup ndw conf junk time l out inp a b GAMMA A t Hd V m); assumption).
  rewrite E. rewrite (csum_ext T _ (fun t => if Nat.eqb (Z.to_nat (time x)) t then vertex nup ndw conf a b (den GAMMA) A (m inp) x s c else RtoC 0)).
  - specialize (HT x Hx). unfold at_time. cbn [Z.eqb orb]. change ((-1 =? -1)%Z) with true. cbn [orb]. set (v := vertex _ _ _ _ _ _ _ _ _ _ _). clearbody v.
    assert (K : forall k, csum k (fun t => if Nat.eqb (Z.to_nat (time x)) t then v else RtoC 0) = if Nat.ltb (Z.to_nat (time x)) k then v else RtoC 0).
    { induction k as [|k IH]; [reflexivity|]. cbn [csum]. rewrite IH. destruct (Nat.eqb_spec (Z.to_nat (time x)) k), (Nat.ltb_spec (Z.to_nat (time x)) k), (Nat.ltb_spec (Z.to_nat (time x)) (S k)); try lia; ring. }
    rewrite K. destruct (Nat.ltb_spec (Z.to_nat (time x)) T); [reflexivity|lia].
  - intros t Ht. rewrite E. unfold at_time. specialize (HT x Hx). destruct (Z.eqb_spec (Z.of_nat t) (-1)); [lia|]. cbn [orb].
    destruct (Z.eqb_spec (time x) (Z.of_nat t)), (Nat.eqb_spec (Z.to_nat (time x)) t); try lia; reflexivity.
Qed.
Print Assumptions C100_times.

(** C100: identity of Ward: a photon which is the difference of a function on the links, on all the directions and times, gives i times the commutator of the operator with the function,
    whatever kappa and the twisted mass; for twisted quarks the operator is the one in the physical basis *)
Theorem C100_ward : forall n sched nup ndw conf junk time l out inp r kappa mass al m, (forall l, StagSpec.order n (sched l)) -> lattice_lx n nup ndw -> out <> inp -> (r < 2)%nat ->
  let D (f : sfield) := tmD nup ndw conf kappa None mass f in
  let Dphys (f : sfield) := sspin (rotation r) (D (sspin (rotation r) f)) in
  let commut (D : sfield -> sfield) (f : sfield) := sadd (D (smul al f)) (sscale (RtoC (-1)) (smul al (D f))) in
  insert_Wilson_external_source sched nup ndw conf junk time l out (diffs nup al) inp (fun _ => true) (-1) m out =[n]= sscale Ci (commut D (m inp)) /\
  insert_tm_external_source sched nup ndw conf junk time l out (diffs nup al) inp r (fun _ => true) (-1) m out =[n]= sscale Ci (commut Dphys (m inp)).
Proof.
  intros n sched nup ndw conf junk time l out inp r kappa mass al m Hs L Hd Hr D Dphys commut.
  destruct (C100_routines n sched nup ndw conf junk time l out inp (-1)%Z r (fun _ => 0%R) (diffs nup al) (fun _ => true) Hs L Hd Hr) as (_ & _ & _ & W & TM & _).
  assert (I : forall f, vertex nup ndw conf (Copp Ci * RtoC (1 / 2)) (Ci * RtoC (1 / 2)) did (fun x mu => if true then diffs nup al x mu else RtoC 0) f =[n]= sscale Ci (commut D f)).
  { intros f x Hx s Hs0 c Hc. unfold commut, D. unfold sscale at 1. rewrite <- (ward n nup ndw conf L kappa mass al f x Hx s Hs0 c Hc). unfold vertex. cbn [csum].
    replace (RtoC (- (1 / 2))) with (Copp (RtoC (1 / 2))) by (apply injective_projections; cbn; ring). ring. }
  split.
  - destruct (W m) as [A _]. rewrite A. intros x Hx s Hs0 c Hc. unfold at_time. change ((-1 =? -1)%Z) with true. cbn [orb]. apply I; assumption.
  - destruct (TM m) as [A _]. rewrite A. intros x Hx s Hs0 c Hc. unfold at_time. change ((-1 =? -1)%Z) with true. cbn [orb].
    rewrite (vertex_twist n nup ndw conf _ _ _ r (m inp) Hr x Hx s Hs0 c Hc).
    set (g := sspin (rotation r) (m inp)).
    transitivity (sspin (rotation r) (sscale Ci (commut D g)) x s c).
    + unfold sspin. apply TmAlg.spin_ext; [reflexivity|exact Hs0| |exact Hc]. intros t Ht k Hk. apply (I g x Hx t Ht k Hk).
    + unfold commut, Dphys. assert (E : forall y t k, sspin (rotation r) (smul al (m inp)) y t k = smul al g y t k) by (intros y t k; unfold g, sspin, smul, spin; cbn [csum]; ring).
      assert (E2 : D (sspin (rotation r) (smul al (m inp))) =[n]= D (smul al g)).
      { unfold D, tmD, hop_lx. assert (Q : sspin (rotation r) (smul al (m inp)) =[n]= smul al g) by (intros y _ t _ k _; apply E).
        apply sadd_mor_Proper; [apply diag_mor_Proper; exact Q|]. apply sscale_mor_Proper. apply hops_ext; [|exact Q]. intros y mu Hy Hmu. destruct (L y mu Hy Hmu) as (? & ? & _). split; assumption. }
      unfold sspin at 1, sscale at 1, sadd at 1. unfold sscale at 1, sadd at 1. unfold sscale at 1, smul at 2. fold g.
      assert (E3 : sspin (rotation r) (D (sspin (rotation r) (smul al (m inp)))) x s c = sspin (rotation r) (D (smul al g)) x s c).
      { unfold sspin at 1 3. apply TmAlg.spin_ext; [reflexivity|exact Hs0| |exact Hc]. intros t Ht k Hk. apply E2; assumption. }
      rewrite E3. unfold sspin, spin, smul, sscale, sadd. cbn [csum]. ring.
Qed.
Print Assumptions C100_ward.

(** C100: the vertex of a twisted quark is that of a Wilson quark rotated to the physical basis; the vertex is covariant under a change of gauge; with gamma5, that of a Wilson quark has as adjoint the vertex with
    the factors exchanged and conjugated: then the tadpole and the insertion of a real photon are hermitian, and the conserved current is antihermitian *)
Theorem C100_algebra : forall n nup ndw U, lattice_lx n nup ndw ->
  (forall a b A r f, (r < 2)%nat -> vertex nup ndw U a b (twisted r) A f =[n]= sspin (rotation r) (vertex nup ndw U a b did A (sspin (rotation r) f))) /\
  (forall g a b G A f, (forall x, (x < n)%nat -> unitary (g x)) -> vertex nup ndw (gauged_lx nup g U) a b G A (gauged_s g f) =[n]= gauged_s g (vertex nup ndw U a b G A f)) /\
  (forall a b A f g, sdot n f (g5 (vertex nup ndw U a b did A g)) = sdot n (g5 (vertex nup ndw U (Cconj b) (Cconj a) did (fun x mu => Cconj (A x mu)) f)) g) /\
  (forall (A : nat -> nat -> R) f g, let V a b := vertex nup ndw U a b did (fun x mu => RtoC (A x mu)) in
    sdot n f (g5 (V (RtoC (- (1 / 4))) (RtoC (- (1 / 4))) g)) = sdot n (g5 (V (RtoC (- (1 / 4))) (RtoC (- (1 / 4))) f)) g /\
    sdot n f (g5 (V (Copp Ci * RtoC (1 / 2)) (Ci * RtoC (1 / 2)) g)) = sdot n (g5 (V (Copp Ci * RtoC (1 / 2)) (Ci * RtoC (1 / 2)) f)) g /\
    sdot n f (g5 (V (RtoC (- (1 / 2))) (RtoC (1 / 2)) g)) = Copp (sdot n (g5 (V (RtoC (- (1 / 2))) (RtoC (1 / 2)) f)) g)).
Proof.
  intros n nup ndw U L. split; [intros; apply (vertex_twist n); assumption|]. split; [intros; apply (vertex_gauge n nup ndw U L); assumption|]. split; [intros; apply (vertex_adj n nup ndw U L)|].
  intros A f g V.
  assert (K : forall a b, sdot n f (g5 (V a b g)) = sdot n (g5 (V (Cconj b) (Cconj a) f)) g).
  { intros a b. unfold V. rewrite (vertex_adj n nup ndw U L). apply sdot_ext; [|apply seq_refl]. apply g5_mor_Proper. intros x Hx s Hs c Hc. unfold vertex. apply csum_ext. intros mu _. rewrite !Cconj_R. reflexivity. }
  assert (C1 : Cconj (Ci * RtoC (1 / 2)) = Copp Ci * RtoC (1 / 2)) by (apply injective_projections; cbn; ring).
  assert (C2 : Cconj (Copp Ci * RtoC (1 / 2)) = Ci * RtoC (1 / 2)) by (apply injective_projections; cbn; ring).
  split; [rewrite K, !Cconj_R; reflexivity|]. split; [rewrite K, C1, C2; reflexivity|].
  rewrite K, !Cconj_R. transitivity (sdot n (sscale (RtoC (-1)) (g5 (V (RtoC (- (1 / 2))) (RtoC (1 / 2)) f))) g).
  - apply sdot_ext; [|apply seq_refl]. rewrite <- (g5_scale n). apply g5_mor_Proper. intros x Hx s Hs c Hc. unfold V, vertex, sscale. cbn [csum]. replace (RtoC (- (1 / 2))) with (Copp (RtoC (1 / 2))) by (apply injective_projections; cbn; ring). rewrite RtoC_m1. ring.
  - rewrite sdot_scal_l, Cconj_R, RtoC_m1. ring.
Qed.
Print Assumptions C100_algebra.

(** *** Examples: four sites in a row in the direction 1, links one, a field which is one in the site 0 (spin 0, colour 0) and zero elsewhere: the conserved current in the direction 1 goes from the site 0 to the site 1 *)
Definition ex_up (x mu : nat) : nat := match mu with 1 => Nat.modulo (x + 1) 4 | _ => x end.
Definition ex_dw (x mu : nat) : nat := match mu with 1 => Nat.modulo (x + 3) 4 | _ => x end.
Definition ex_src : sfield := fun x s c => if (Nat.eqb x 0 && Nat.eqb s 0 && Nat.eqb c 0)%bool then RtoC 1 else RtoC 0.
Example C100_ex_lattice : lattice_lx 4 ex_up ex_dw /\ StagSpec.order 4 [2; 0; 3; 1]%nat.
Proof.
  split.
  - intros x mu Hx Hmu. destruct mu as [|[|mu]]; [|destruct x as [|[|[|[|]]]]; cbn; lia|]; unfold ex_up, ex_dw; repeat split; lia.
  - split; [repeat (constructor; [cbn; lia|]); constructor|]. intros k. cbn. lia.
Qed.
Example C100_ex : forall m, m 1%nat = ex_src ->
  let v := insert_Wilson_conserved_current (fun _ => [2; 0; 3; 1]%nat) ex_up ex_dw (fun _ _ => mid) zero_matr (fun _ => 0%Z) 0 0 1 (fun mu => Nat.eqb mu 1) 0 m 0%nat in
  v 1%nat 0%nat 0%nat = RtoC (1 / 2) /\ v 3%nat 0%nat 0%nat = RtoC (- (1 / 2)) /\ v 2%nat 0%nat 0%nat = RtoC 0.
Proof.
  intros m E v. destruct C100_ex_lattice as (L & O).
  destruct (C100_routines 4 (fun _ => [2; 0; 3; 1]%nat) ex_up ex_dw (fun _ _ => mid) zero_matr (fun _ => 0%Z) 0%nat 0%nat 1%nat 0%Z 0%nat (fun _ => 0%R) (fun _ _ => RtoC 0) (fun mu => Nat.eqb mu 1) (fun _ => O) L ltac:(lia) ltac:(lia)) as (_ & _ & _ & _ & _ & W & _).
  destruct (W m) as [A _]. rewrite E in A.
  assert (F : forall x, (x < 4)%nat -> v x 0%nat 0%nat = vertex ex_up ex_dw (fun _ _ => mid) (RtoC (- (1 / 2))) (RtoC (1 / 2)) did (fun _ mu => if Nat.eqb mu 1 then RtoC 1 else RtoC 0) ex_src x 0%nat 0%nat).
  { intros x Hx. apply (A x Hx 0%nat ltac:(lia) 0%nat ltac:(lia)). }
  rewrite !F by lia. unfold vertex, spin, mvec, dag, mid, dsub, dadd, did, gam, den, ex_src. repeat split; apply injective_projections; cbn; lra.
Qed.
