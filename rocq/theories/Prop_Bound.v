(** C90: boundary conditions of a configuration. *)
From Coq Require Import Reals Lra Lia.
From Coquelicot Require Import Coquelicot.
From Verif Require Import Base GeometryModel GeometrySpec GeoMiscModel HaloModel EoModel EoProofs StapleModel StapleSpec StapleProofs Prop_Staple
  CplxModel MatModel MatSpec MatProofs MatAlg MatProofs4 HaloProofs OwnerProofs ChecksumSpec ChecksumMain StapleMain IldgProofs GaugeModel GaugeSpec GaugeProofs GfixProofs Prop_Gauge Prop_Gfix BackModel BackSpec BackProofs.
Set Bullet Behavior "Strict Subproofs".
Open Scope Z_scope.

Lemma gather_phases g (c : nat -> C) n (U : list Z -> nat -> cmat) conf conf' : valid_grid g = true -> locVol g <= n -> holds g U conf ->
  (forall r, 0 <= r < nranks g -> entry_times c n (conf r) (conf' r)) -> exists U', holds g U' conf' /\ with_phases c U U' (glbSize g).
Proof.
  intros Hv Hn Hc E. destruct (gather_holds g conf' (fun x mu => mscale (c mu) (U x mu)) Hv) as (U' & H1 & H2).
  - intros r i x mu Hr Hi Hx Hmu. destruct (E r Hr i mu) as [A _]. specialize (A ltac:(lia) Hmu). rewrite (Hc r i x mu Hr Hi Hx Hmu) in A. exact A.
  - exists U'. split; [exact H1|]. intros x mu Hx Hmu. now apply H2.
Qed.
Lemma mscale_mul a b X Y : meq (mmul (mscale a X) (mscale b Y)) (mscale (a * b)%C (mmul X Y)).
Proof. rewrite mmul_scale_l, mmul_scale_r. apply mscale_mscale. Qed.
Lemma mscale_proper' a b X Y : a = b -> meq X Y -> meq (mscale a X) (mscale b Y).
Proof. intros -> E i j Hi Hj. unfold mscale. now rewrite (E i j Hi Hj). Qed.
Lemma dag_scale a X : meq (dag (mscale a X)) (mscale (Cconj a) (dag X)).
Proof. intros i j _ _. unfold dag, mscale. apply Cconj_mult. Qed.
Lemma line_phases G c U U' mu n : length G = 4%nat -> (mu < 4)%nat -> with_phases (fun nu => expi (c nu)) U U' G -> forall x, in_box x G ->
  meq (line G U' x mu n) (mscale (expi (INR n * c mu)) (line G U x mu n)).
Proof.
  intros L4 Hmu W. induction n as [|n IH]; intros x Hx.
  - cbn [line INR]. rewrite Rmult_0_l, expi_0. intros i j _ _. unfold mscale. ring.
  - cbn [line]. assert (Hs : in_box (step G x mu) G) by (apply shift_in_box; [exact Hx|lia]). rewrite (W x mu Hx Hmu), (IH _ Hs), mscale_mul. apply mscale_proper'; [|reflexivity].
    rewrite <- expi_plus. f_equal. rewrite S_INR. ring.
Qed.
Lemma plaquette_phases G c U U' : length G = 4%nat -> with_phases (fun nu => expi (c nu)) U U' G -> forall x mu nu, in_box x G -> (mu < 4)%nat -> (nu < 4)%nat ->
  meq (plaquette G U' x mu nu) (plaquette G U x mu nu).
Proof.
  intros L4 W x mu nu Hx Hmu Hnu. unfold plaquette. assert (Hm : in_box (step G x mu) G) by (apply shift_in_box; [exact Hx|lia]). assert (Hn : in_box (step G x nu) G) by (apply shift_in_box; [exact Hx|lia]).
  rewrite (W x mu Hx Hmu), (W x nu Hx Hnu), (W _ nu Hm Hnu), (W _ mu Hn Hmu). rewrite !mscale_mul, dag_scale, mscale_mul.
  transitivity (mscale (RtoC 1) (mmul (mmul (U x mu) (U (step G x mu) nu)) (dag (mmul (U x nu) (U (step G x nu) mu))))); [|intros i j _ _; unfold mscale; ring].
  apply mscale_proper'; [|reflexivity]. rewrite <- !expi_plus, expi_conj, <- expi_plus, <- expi_0. f_equal. ring.
Qed.

(** C90: on every rank the links in direction mu are multiplied by e^{i pi theta_mu/L_mu}, also on the borders and on the edges if asked; so are those of the lattice, and
    the product of those of a line around it is multiplied by e^{i pi theta_mu}, while the plaquettes do not change *)
Theorem C90_put :
  forall g ord U conf theta bords edges, valid_grid g = true -> any_order ord -> holds g U conf ->
  (forall r, 0 <= r < nranks g -> entry_times (fun mu => expi (theta mu * PI / IZR (glbSize g).[mu])) (nsites g bords edges) (conf r) (put_boundaries_conditions g ord r (conf r) theta bords edges)) /\
  exists U', holds g U' (fun r => put_boundaries_conditions g ord r (conf r) theta bords edges) /\
    with_phases (fun mu => expi (theta mu * PI / IZR (glbSize g).[mu])) U U' (glbSize g) /\
    (forall x mu, in_box x (glbSize g) -> (mu < 4)%nat ->
       meq (line (glbSize g) U' x mu (Z.to_nat (glbSize g).[mu])) (mscale (expi (PI * theta mu)) (line (glbSize g) U x mu (Z.to_nat (glbSize g).[mu])))) /\
    (forall x mu nu, in_box x (glbSize g) -> (mu < 4)%nat -> (nu < 4)%nat -> meq (plaquette (glbSize g) U' x mu nu) (plaquette (glbSize g) U x mu nu)).
Proof.
  intros g ord U conf th b e Hv Ho Hc. assert (L4 : length (glbSize g) = 4%nat) by (apply IldgProofs.glb_len; exact Hv).
  assert (E : forall r, 0 <= r < nranks g -> entry_times (fun mu => expi (th mu * PI / IZR (glbSize g).[mu])) (nsites g b e) (conf r) (put_boundaries_conditions g ord r (conf r) th b e)) by (intros r _; now apply put_ok).
  split; [exact E|]. destruct (fun K => gather_phases g _ (nsites g b e) U conf (fun r => put_boundaries_conditions g ord r (conf r) th b e) Hv K Hc E) as (U' & H1 & H2).
  { unfold nsites. destruct (vols_nonneg g Hv) as (_ & V1 & V2). destruct b, e; lia. }
  exists U'. split; [exact H1|]. split; [exact H2|]. split; [|now apply (plaquette_phases (glbSize g) (fun mu => th mu * PI / IZR (glbSize g).[mu])%R)].
  intros x mu Hx Hmu. rewrite (line_phases (glbSize g) (fun mu => th mu * PI / IZR (glbSize g).[mu])%R U U' mu _ L4 Hmu H2 x Hx). apply mscale_proper'; [|reflexivity]. f_equal.
  assert (P : 0 < (glbSize g).[mu]) by (pose proof (glbSize_pos g Hv) as GP; rewrite Forall_forall in GP; apply GP, nth_In; lia). rewrite INR_IZR_INZ, Z2Nat.id by lia. field. apply not_0_IZR. lia.
Qed.
Print Assumptions C90_put.

(** C90: removing the conditions which have been put gives the links back *)
Theorem C90_remove :
  forall g ord r conf theta bords edges, any_order ord ->
  entry_times (fun _ => RtoC 1) (nsites g bords edges) conf (rem_boundaries_conditions g ord r (put_boundaries_conditions g ord r conf theta bords edges) theta bords edges).
Proof.
  intros g ord r conf th b e Ho. unfold rem_boundaries_conditions.
  eapply times_ext; [|eapply times_trans; [apply put_ok, Ho|apply put_ok, Ho]]. intros mu _. cbv beta. rewrite <- expi_plus, <- expi_0. f_equal. unfold Rdiv. ring.
Qed.
Print Assumptions C90_remove.

(** C90: after any history of changes of the conditions, the links are those which one gets putting the last ones, and the record of the conditions is right *)
Definition adapt_all (g : grid) ord (r : Z) (b e : bool) (conf : @qfield cmat) (old : nat -> R) (thetas : list (nat -> R)) : @qfield cmat * (nat -> R) :=
  fold_left (fun s th => adapt_theta g ord r (fst s) (snd s) th b e) thetas (conf, old).
Theorem C90_history :
  forall g ord r bords edges thetas conf old, any_order ord ->
  (forall mu, (mu < 4)%nat -> snd (adapt_all g ord r bords edges conf old thetas) mu = last thetas old mu) /\
  entry_times (fun mu => expi ((last thetas old mu - old mu) * PI / IZR (glbSize g).[mu])) (nsites g bords edges) conf (fst (adapt_all g ord r bords edges conf old thetas)).
Proof.
  intros g ord r b e thetas conf old Ho. unfold adapt_all. induction thetas as [|th thetas IH] using rev_ind.
  - cbn [fold_left last fst snd]. split; [reflexivity|]. eapply times_ext; [|apply times_one]. intros mu _. cbv beta. rewrite <- expi_0. f_equal. unfold Rdiv. ring.
  - rewrite fold_left_app, last_last. cbn [fold_left]. destruct IH as [I1 I2]. destruct (fold_left _ thetas (conf, old)) as [c o]. cbn [fst snd] in I1, I2 |- *.
    pose proof (adapt_ok g ord Ho r c o th b e) as A. destruct (adapt_theta g ord r c o th b e) as [c' o']. destruct A as [A B]. cbn [fst snd]. split; [exact B|].
    eapply times_ext; [|eapply times_trans; [exact I2|exact A]]. intros mu Hmu. cbv beta. rewrite <- expi_plus, (I1 mu Hmu). f_equal. unfold Rdiv. ring.
Qed.
Print Assumptions C90_history.

(** *** Example: antiperiodic conditions in time on the 4x4x2x2 lattice *)
Definition anti (mu : nat) : R := if Nat.eqb mu 0 then 1%R else 0%R.
Example C90_ex : exists U', holds st_grid U' (fun r => put_boundaries_conditions st_grid st_ord r (gx_conf r) anti true true) /\
  meq (line [4; 4; 2; 2] U' [0; 0; 0; 0] 0 4) (mscale (RtoC (-1)) mid).
Proof.
  destruct (C90_put st_grid st_ord gx_link gx_conf anti true true eq_refl st_ord_ok gx_holds) as (_ & U' & H & _ & L & _). exists U'. split; [exact H|].
  assert (E : glbSize st_grid = [4; 4; 2; 2]) by reflexivity. rewrite E in L. specialize (L [0; 0; 0; 0] 0%nat). 
  assert (B : in_box [0; 0; 0; 0] [4; 4; 2; 2]) by (repeat constructor; lia). specialize (L B ltac:(lia)). change (Z.to_nat [4; 4; 2; 2].[0]) with 4%nat in L. rewrite L.
  assert (X : meq (line [4; 4; 2; 2] gx_link [0; 0; 0; 0] 0 4) mid). { cbn [line]. unfold gx_link. cbn [Nat.eqb andb]. now rewrite !mmul_1_l. }
  apply mscale_proper'; [|exact X]. unfold anti, expi. cbn [Nat.eqb]. rewrite Rmult_1_r, cos_PI, sin_PI. reflexivity.
Qed.
