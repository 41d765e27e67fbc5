(** C80, C81: Fourier transform of a field and correlator of the topological charge *)
From Verif Require Import Base GeometryModel GeometrySpec GeometryProofs OwnerProofs LabelProofs HaloProofs Geometry_final
  AllToAllModel IldgModel IldgProofs LocdMain FftModel FftSpec FftAlg FftProofs FftInv TopoCorrProofs.
From Coq Require Import Reals Lra FunctionalExtensionality.
From Coquelicot Require Import Complex.
Set Bullet Behavior "Strict Subproofs".
Local Open Scope Z_scope.

(** C80: all the ranks, whatever the order of the loops and what the buffer held, end with the transform in the directions chosen *)
Theorem C80_fft :
  forall g, valid_grid g = true -> glb_fits_int g -> forall sched, orders sched ->
  forall (dirs : nat -> bool) (sign : R) (normalize : bool) junk f (F : list Z -> nat -> C),
  (forall mu, (mu < 4)%nat -> dirs mu = true -> can_transform g mu) -> holds g f F ->
  exists f', fft4d g sched dirs sign normalize junk f = Some f' /\
    holds g f' (fun x icpp => (dft (glbSize g) dirs sign (fun y => F y icpp) x / RtoC (if normalize then dft_norm (glbSize g) dirs else 1))%C).
Proof. intros g Hv Hf sched Ho dirs s nm junk f F Hd HF. now apply fft4d_main. Qed.
Print Assumptions C80_fft.

(** the transforms with the two signs are inverse of each other, up to the number of points *)
Theorem C80_inverse :
  forall L, length L = 4%nat -> Forall (fun n => 0 < n) L -> forall dirs s (f : list Z -> C) x, (s = 1 \/ s = -1)%R -> in_box x L ->
  dft L dirs (- s) (dft L dirs s f) x = (RtoC (dft_norm L dirs) * f x)%C.
Proof. intros L HL HP dirs s f x Hs Hx. now apply dft_inv. Qed.
Print Assumptions C80_inverse.

(** so transforming forth with the normalization and back without, or the other way, gives back the field *)
Theorem C80_round_trip :
  forall g, valid_grid g = true -> glb_fits_int g -> forall sched sched', orders sched -> orders sched' ->
  forall (dirs : nat -> bool) (s : R) (n1 : bool) junk junk' f (F : list Z -> nat -> C), (s = 1 \/ s = -1)%R ->
  (forall mu, (mu < 4)%nat -> dirs mu = true -> can_transform g mu) -> holds g f F ->
  exists f1 f2, fft4d g sched dirs s n1 junk f = Some f1 /\ fft4d g sched' dirs (- s) (negb n1) junk' f1 = Some f2 /\ holds g f2 F.
Proof.
  intros g Hv Hf sched sched' Ho Ho' dirs s n1 junk junk' f F Hs Hd HF.
  destruct (fft4d_main g Hv Hf sched Ho dirs s n1 junk f F Hd HF) as (f1 & E1 & H1).
  destruct (fft4d_main g Hv Hf sched' Ho' dirs (- s) (negb n1) junk' f1 _ Hd H1) as (f2 & E2 & H2).
  exists f1, f2. split; [exact E1|]. split; [exact E2|]. intros r i x Hr Hi Hx. rewrite (H2 r i x Hr Hi Hx). f_equal. apply functional_extensionality. intros ic.
  destruct (site_coords g r i Hv Hr Hi) as (x' & Hc & Hb & _). assert (x' = x) by congruence. subst x'.
  assert (Hnz : RtoC (dft_norm (glbSize g) dirs) <> RtoC 0).
  { intros E. injection E as E. revert E. unfold dft_norm. pose proof (glbSize_pos g Hv) as GP. destruct (length4 _ (glb_len g Hv)) as (a & b & c & d & EG). rewrite EG in *. cbn [nth].
    inversion GP as [|? ? Pa GP1]. inversion GP1 as [|? ? Pb GP2]. inversion GP2 as [|? ? Pc GP3]. inversion GP3 as [|? ? Pd _]. subst.
    assert (forall z, 0 < z -> IZR z <> 0%R) by (intros z Hz; apply not_0_IZR; lia).
    destruct (dirs 0%nat), (dirs 1%nat), (dirs 2%nat), (dirs 3%nat); repeat (apply Rmult_integral_contrapositive_currified); auto; lra. }
  assert (H1z : RtoC 1 <> RtoC 0) by (intros E; injection E; lra).
  unfold Cdiv at 2. rewrite dft_scal. rewrite (dft_inv (glbSize g) (glb_len g Hv) (glbSize_pos g Hv) dirs s (fun y => F y ic) x Hs Hb).
  destruct n1; cbn [negb]; field; tauto.
Qed.
Print Assumptions C80_round_trip.

(** C81: the program that computes the correlator of the charge... *)
Theorem C81_topo_corr :
  forall g, valid_grid g = true -> glb_fits_int g -> forall sched, orders sched -> (forall mu, (mu < 4)%nat -> can_transform g mu) ->
  forall junk charge (q : list Z -> R), holds g charge q ->
  exists out, compute_topo_corr g sched false junk charge = Some out /\ holds g out (convolution (glbSize g) q).
Proof.
  intros g Hv Hf sched Ho Hd junk charge q Hq. destruct (topo_conv g Hv Hf sched Ho Hd junk charge q Hq) as (out & E & H). exists out. split; [exact E|].
  intros r i x Hr Hi Hx. rewrite (H r i x Hr Hi Hx). f_equal. unfold convolution.
  rewrite (bsum_ext (glbSize g) (glb_len g Hv) _ (fun y => RtoC (q y * q (periodic_sub (glbSize g) x y)))) by (intros; symmetry; apply RtoC_mult).
  pose proof (V_nz g Hv) as Hnz.
  assert (Hr0 : dft_norm (glbSize g) (fun _ => true) <> 0%R) by (intros E'; apply Hnz; now rewrite E').
  set (b := bsum _ _). set (v := dft_norm _ _) in *. destruct b as [b1 b2]. unfold Cdiv, Cinv, Cmult, RtoC. cbn [fst snd]. field. exact Hr0.
Qed.
Print Assumptions C81_topo_corr.

(** with the time-momentum representation the second transform is done in the time only *)
Theorem C81_time_momentum :
  forall g, valid_grid g = true -> glb_fits_int g -> forall sched, orders sched -> (forall mu, (mu < 4)%nat -> can_transform g mu) ->
  forall junk charge (q : list Z -> R), holds g charge q ->
  exists out, compute_topo_corr g sched true junk charge = Some out /\
    holds g out (fun x => fst (dft (glbSize g) (fun mu => Nat.eqb mu 0) (-1)
      (fun k => let h := (dft (glbSize g) (fun _ => true) 1 (fun y => RtoC (q y)) k / RtoC (dft_norm (glbSize g) (fun _ => true)))%C in h * h)%C x)).
Proof. intros g Hv Hf sched Ho Hd junk charge q Hq. exact (topo_main g Hv Hf sched Ho Hd true junk charge q Hq). Qed.
Print Assumptions C81_time_momentum.

(** ...does not compute it: the transform is multiplied by itself, not by its conjugate.  A charge 1 on a site has C(0)=1/V, the program gives 0 *)
Definition fft_grid : grid := mkGrid [4;2;2;2] [1;1;1;1].
Definition one_site (x : list Z) : R := if list_eq_dec Z.eq_dec x [1;0;0;0] then 1%R else 0%R.
Lemma seqZ_orders : orders seqZ.
Proof. intros m. split; [apply NoDup_seqZ|]. intros i. apply in_seqZ. Qed.
Definition one_charge : Z -> table R := fun r i => match glb_coords fft_grid r i with Some x => Some (one_site x) | None => None end.
Theorem C81_correlator_refuted :
  valid_grid fft_grid = true /\ glb_fits_int fft_grid /\ (forall mu, (mu < 4)%nat -> can_transform fft_grid mu) /\ holds fft_grid one_charge one_site /\
  exists out, compute_topo_corr fft_grid seqZ false (fun _ => tempty) one_charge = Some out /\
    glb_coords fft_grid 0 0 = Some [0;0;0;0] /\ out 0 0 = Some 0%R /\ correlator (glbSize fft_grid) one_site [0;0;0;0] = (1 / 32)%R.
Proof.
  assert (Hv : valid_grid fft_grid = true) by (vm_compute; reflexivity).
  assert (Hf : glb_fits_int fft_grid) by (unfold glb_fits_int, int_max; vm_compute; congruence).
  assert (Hd : forall mu, (mu < 4)%nat -> can_transform fft_grid mu) by (intros; left; vm_compute; reflexivity).
  assert (Hq : holds fft_grid one_charge one_site) by (intros r i x _ _ Hx; unfold one_charge; rewrite Hx; reflexivity).
  split; [exact Hv|]. split; [exact Hf|]. split; [exact Hd|]. split; [exact Hq|].
  destruct (C81_topo_corr fft_grid Hv Hf seqZ seqZ_orders Hd (fun _ => tempty) one_charge one_site Hq) as (out & E & H).
  exists out. split; [exact E|]. assert (H0 : glb_coords fft_grid 0 0 = Some [0;0;0;0]) by (vm_compute; reflexivity). split; [exact H0|].
  assert (Hr : 0 <= 0 < nranks fft_grid) by (vm_compute; split; congruence). assert (Hi : 0 <= 0 < locVol fft_grid) by (vm_compute; split; congruence).
  rewrite (H 0 0 _ Hr Hi H0). unfold convolution, correlator, dft_norm, bsum, zsum. cbn [fft_grid glbSize nth].
  change (Z.to_nat 4) with 4%nat. change (Z.to_nat 2) with 2%nat. cbn [nsum Z.of_nat Pos.of_succ_nat Pos.succ].
  unfold periodic_sub, periodic_add. cbn [map nth].
  repeat match goal with |- context [Z.modulo ?a ?b] => let v := eval vm_compute in (Z.modulo a b) in change (Z.modulo a b) with v end.
  assert (S1 : one_site [1;0;0;0] = 1%R) by reflexivity.
  assert (S0 : forall x, x <> [1;0;0;0] -> one_site x = 0%R) by (intros x Hx; unfold one_site; destruct (list_eq_dec Z.eq_dec x [1;0;0;0]); [contradiction|reflexivity]).
  rewrite !S1. rewrite !S0 by discriminate. unfold RtoC, Cplus. cbn [fst snd]. split; [f_equal|]; lra.
Qed.
Print Assumptions C81_correlator_refuted.

(** hypotheses met on more ranks *)
Definition fft_grid4 : grid := mkGrid [4;4;4;2] [1;2;2;1].
Example C80_ex : valid_grid fft_grid4 = true /\ glb_fits_int fft_grid4 /\ nranks fft_grid4 = 4 /\ orders seqZ /\ (forall mu, (mu < 4)%nat -> can_transform fft_grid4 mu).
Proof.
  split; [vm_compute; reflexivity|]. split; [unfold glb_fits_int, int_max; vm_compute; congruence|]. split; [vm_compute; reflexivity|]. split; [exact seqZ_orders|].
  intros mu Hmu. right. destruct (Nat.eqb mu 0); vm_compute; reflexivity.
Qed.
(** the transform is not trivial: a constant becomes a peak at the origin *)
Example C80_ex_const : dft [4;2;2;2] (fun _ => true) 1 (fun _ => RtoC 1) [0;0;0;0] = RtoC 32.
Proof.
  unfold dft, zsum. cbn [nth]. change (Z.to_nat 4) with 4%nat. change (Z.to_nat 2) with 2%nat. cbn [nsum].
  repeat match goal with |- context [cis ?a] => replace (cis a) with (RtoC 1) by (rewrite <- cis_0; f_equal; field) end.
  apply injective_projections; cbn [fst snd RtoC Cplus Cmult]; ring.
Qed.
