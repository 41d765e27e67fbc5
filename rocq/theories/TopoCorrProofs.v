(** Correlator of the topological charge *)
From Verif Require Import Base GeometryModel GeometrySpec GeometryProofs OwnerProofs LabelProofs HaloProofs
  AllToAllModel IldgModel IldgProofs FftModel FftSpec FftAlg FftProofs FftInv.
From Coq Require Import Reals Lra FunctionalExtensionality.
From Coquelicot Require Import Complex.
Set Bullet Behavior "Strict Subproofs".
Local Open Scope Z_scope.

Lemma fold_write {A B} (h : A -> B) (src : table A) : forall l (t : table B) i, NoDup l ->
  fold_left (fun t i => match src i with Some s => tset t i (h s) | None => t end) l t i =
  if in_dec Z.eq_dec i l then match src i with Some s => Some (h s) | None => t i end else t i.
Proof.
  induction l as [|a l IH]; intros t i Hn; [reflexivity|]. inversion Hn as [|? ? Ha Hn']; subst. cbn [fold_left]. rewrite IH by assumption.
  destruct (Z.eq_dec i a) as [->|Hne].
  - destruct (in_dec Z.eq_dec a l); [contradiction|]. destruct (in_dec Z.eq_dec a (a :: l)) as [_|H]; [|exfalso; apply H; now left].
    destruct (src a) eqn:E; [|reflexivity]. unfold tset. now rewrite Z.eqb_refl.
  - match goal with |- (if _ then _ else ?u) = _ => assert (Et : u = t i) end.
    { destruct (src a); [|reflexivity]. unfold tset. replace (i =? a) with false by lia. reflexivity. }
    rewrite Et. destruct (in_dec Z.eq_dec i l) as [H|H], (in_dec Z.eq_dec i (a :: l)) as [H'|H']; try reflexivity; cbn in H'; intuition congruence.
Qed.

Lemma dft_ext L dirs s f h x : length L = 4%nat -> in_box x L -> (forall y, in_box y L -> f y = h y) -> dft L dirs s f x = dft L dirs s h x.
Proof.
  intros HL Hx H. unfold dft. cbv zeta. apply zsum_ext; intros d Hd. apply zsum_ext; intros c Hc. apply zsum_ext; intros b Hb. apply zsum_ext; intros a Ha. f_equal. apply H.
  destruct (box4 x L HL Hx) as (x0 & x1 & x2 & x3 & ->). destruct L as [|l0 [|l1 [|l2 [|l3 [|]]]]]; try discriminate HL. cbn [nth] in *.
  unfold in_box in Hx. inversion Hx as [|? ? ? ? B0 Hx1]; subst. inversion Hx1 as [|? ? ? ? B1 Hx2]; subst. inversion Hx2 as [|? ? ? ? B2 Hx3]; subst. inversion Hx3 as [|? ? ? ? B3 _]; subst.
  apply in_box4. destruct (dirs 0%nat), (dirs 1%nat), (dirs 2%nat), (dirs 3%nat); lia.
Qed.
Lemma dft_scal L dirs s a f x : dft L dirs s (fun y => f y * a)%C x = (dft L dirs s f x * a)%C.
Proof.
  unfold dft. cbv zeta. rewrite <- zsum_scal_r. apply zsum_ext; intros d _. rewrite <- zsum_scal_r. apply zsum_ext; intros c _. rewrite <- zsum_scal_r. apply zsum_ext; intros b _. rewrite <- zsum_scal_r. apply zsum_ext; intros e _. ring.
Qed.

Section Topo.
Context (g : grid) (Hv : valid_grid g = true) (Hf : glb_fits_int g) (sched : Z -> list Z) (Ho : orders sched) (Hd : forall mu, (mu < 4)%nat -> can_transform g mu).
Let L := glbSize g.
Let V := dft_norm L (fun _ => true).
Theorem topo_main tm junk charge q : holds g charge q ->
  exists out, compute_topo_corr g sched tm junk charge = Some out /\
    holds g out (fun x => fst (dft L (if tm then fun mu => Nat.eqb mu 0 else fun _ => true) (-1) (fun k => let h := (dft L (fun _ => true) 1 (fun y => RtoC (q y)) k / RtoC V)%C in h * h)%C x)).
Proof.
  intros Hq. unfold compute_topo_corr.
  set (c0 := fun r => fold_left (fun t i => match charge r i with Some q => tset t i (fun _ => RtoC q) | None => t end) (sched (locVol g)) tempty).
  assert (H0 : holds g c0 (fun x _ => RtoC (q x))).
  { intros r i x Hr Hi Hx. unfold c0. rewrite (fold_write (fun q (_ : nat) => RtoC q)) by apply (Ho _).
    destruct (in_dec Z.eq_dec i (sched (locVol g))) as [_|Hn]; [|exfalso; apply Hn, (proj2 (Ho _)), Hi]. rewrite (Hq r i x Hr Hi Hx). reflexivity. }
  destruct (fft4d_main g Hv Hf sched Ho (fun _ => true) 1 true junk c0 _ (fun mu Hmu _ => Hd mu Hmu) H0) as (c1 & -> & H1).
  set (c2 := fun r => fold_left (fun t i => match t i with Some s => tset t i (fun icpp => s icpp * s icpp)%C | None => t end) (sched (locVol g)) (c1 r)).
  match type of H1 with holds _ _ ?F => assert (H2 : holds g c2 (fun x icpp => F x icpp * F x icpp)%C) end.
  { intros r i x Hr Hi Hx. unfold c2. rewrite (fold_sites (fun s (icpp : nat) => s icpp * s icpp)%C) by apply (Ho _).
    destruct (in_dec Z.eq_dec i (sched (locVol g))) as [_|Hn]; [|exfalso; apply Hn, (proj2 (Ho _)), Hi]. rewrite (H1 r i x Hr Hi Hx). reflexivity. }
  destruct (fft4d_main g Hv Hf sched Ho (if tm then fun mu => Nat.eqb mu 0 else fun _ => true) (-1) false junk c2 _ (fun mu Hmu _ => Hd mu Hmu) H2) as (c3 & -> & H3).
  eexists. split; [reflexivity|]. intros r i x Hr Hi Hx. rewrite (fold_write (fun s : site_val => fst (s 0%nat))) by apply (Ho _).
  destruct (in_dec Z.eq_dec i (sched (locVol g))) as [_|Hn]; [|exfalso; apply Hn, (proj2 (Ho _)), Hi]. rewrite (H3 r i x Hr Hi Hx). cbv beta. do 2 f_equal.
  match goal with |- (?a / _)%C = ?b => replace (a / RtoC 1)%C with a by (field; intros E; injection E; lra) end. reflexivity.
Qed.
Lemma V_nz : RtoC V <> RtoC 0.
Proof.
  intros E. injection E as E. unfold V, dft_norm, L in E. pose proof (glbSize_pos g Hv) as GP. destruct (length4 _ (glb_len g Hv)) as (a & b & c & d & EG). rewrite EG in *. cbn [nth] in E.
  inversion GP as [|? ? Pa GP1]. inversion GP1 as [|? ? Pb GP2]. inversion GP2 as [|? ? Pc GP3]. inversion GP3 as [|? ? Pd _]. subst.
  rewrite <- !mult_IZR in E. apply eq_IZR in E. nia.
Qed.
Theorem topo_conv junk charge q : holds g charge q ->
  exists out, compute_topo_corr g sched false junk charge = Some out /\
    holds g out (fun x => fst (bsum L (fun y => RtoC (q y) * RtoC (q (periodic_sub L x y))) / RtoC V)%C).
Proof.
  intros Hq. destruct (topo_main false junk charge q Hq) as (out & E & H). exists out. split; [exact E|].
  intros r i x Hr Hi Hx. rewrite (H r i x Hr Hi Hx). f_equal. f_equal.
  destruct (site_coords g r i Hv Hr Hi) as (x' & Hc & Hb & _). assert (x' = x) by congruence. subst x'.
  pose proof (glb_len g Hv) as HL. pose proof (glbSize_pos g Hv) as HP. pose proof V_nz as Hnz.
  set (Q := fun y => RtoC (q y)). set (conv := fun x => bsum L (fun y => Q y * Q (periodic_sub L x y))%C).
  rewrite (dft_ext L _ (-1) _ (fun k => dft L (fun _ => true) 1 conv k * (/ RtoC V / RtoC V))%C x HL Hb).
  2:{ intros k _. cbv zeta. unfold conv. rewrite (dft_conv L HL HP Q Q k). fold Q. field. exact Hnz. }
  rewrite dft_scal. pose proof (dft_inv L HL HP (fun _ => true) 1 conv x (or_introl eq_refl) Hb) as Hinv. fold V in Hinv.
  match goal with |- (_ * _)%C = ?b => transitivity (RtoC V * conv x * (/ RtoC V / RtoC V))%C; [f_equal; exact Hinv|] end.
  change (bsum L (fun y => RtoC (q y) * RtoC (q (periodic_sub L x y)))%C) with (conv x). field. exact Hnz.
Qed.
End Topo.
