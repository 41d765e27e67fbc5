(** The transform of the program is the discrete Fourier transform *)
From Verif Require Import Base GeometryModel GeometrySpec GeometryProofs OwnerProofs LabelProofs HaloProofs Geometry_final
  AllToAllModel AllToAllSpec AllToAllMain AllToAllSetup AllToAllRemap IldgModel IldgProofs RemapMain LocdMain FftLocd FftModel FftSpec FftAlg.
From Coq Require Import Reals Lra FunctionalExtensionality.
From Coquelicot Require Import Complex.
Set Bullet Behavior "Strict Subproofs".
Local Open Scope Z_scope.

(** ** The lines of a rank *)
Lemma forallb_ext_in {A} (f h : A -> bool) l : (forall x, In x l -> f x = h x) -> forallb f l = forallb h l.
Proof. induction l as [|a l IH]; intros H; [reflexivity|]. cbn [forallb]. rewrite H, IH by (intros; try apply H; cbn; auto). reflexivity. Qed.
Lemma fft_lines_at n s : 0 < n -> forall l buf p, NoDup l -> In (p / n) l -> fold_left (fft_line n s) l buf p = fft_line n s buf (p / n) p.
Proof.
  intros Hn.
  assert (Hout : forall l buf p, ~ In (p / n) l -> fold_left (fft_line n s) l buf p = buf p).
  { induction l as [|a l IH]; intros buf p Hni; [reflexivity|]. cbn [fold_left]. rewrite IH by (intros H; apply Hni; now right).
    unfold fft_line. destruct ((a * n <=? p) && (p <? a * n + n)) eqn:E; [|reflexivity].
    exfalso. apply Hni. left. apply (Z.div_unique p n a (p - a * n)); lia. }
  assert (Hloc : forall a buf buf', (forall p, p / n = a -> buf p = buf' p) -> forall p, p / n = a -> fft_line n s buf a p = fft_line n s buf' a p).
  { intros a buf buf' E p Hp. assert (Eb : forall j, In j (seqZ n) -> buf (a * n + j) = buf' (a * n + j)).
    { intros j Hj. apply in_seqZ in Hj. apply E. rewrite Z.div_add_l, Z.div_small by lia. lia. }
    unfold fft_line. rewrite (forallb_ext_in _ (fun j => match buf' (a * n + j) with Some _ => true | None => false end)).
    2:{ intros j Hj. now rewrite (Eb j Hj). }
    rewrite (E p Hp). destruct ((a * n <=? p) && (p <? a * n + n)); [|reflexivity]. destruct (forallb _ _); [|reflexivity].
    f_equal. apply functional_extensionality. intros icpp. unfold dft_line. apply zsum_ext. intros k Hk. rewrite (Eb k) by (apply in_seqZ; lia). reflexivity. }
  induction l as [|a l IH]; intros buf p Hnd Hin; [contradiction|]. inversion Hnd as [|? ? Hna Hnd']; subst. cbn [fold_left].
  destruct (Z.eq_dec a (p / n)) as [->|Hne].
  - now rewrite Hout.
  - destruct Hin as [|Hin]; [congruence|]. rewrite IH by assumption. apply Hloc; [|reflexivity]. intros p' Hp'. unfold fft_line.
    destruct ((a * n <=? p') && (p' <? a * n + n)) eqn:E; [|reflexivity]. exfalso. apply Hne. rewrite <- Hp'. symmetry. symmetry. apply (Z.div_unique p' n a (p' - a * n)); lia.
Qed.
Lemma all_ranks_some {A} g (f : Z -> option (table A)) : (forall r, 0 <= r < nranks g -> exists t, f r = Some t) ->
  exists h, all_ranks g f = Some h /\ forall r, 0 <= r < nranks g -> f r = Some (h r).
Proof.
  intros H. unfold all_ranks. replace (forallb _ _) with true.
  - eexists. split; [reflexivity|]. intros r Hr. destruct (H r Hr) as [t E]. cbv beta. rewrite E. reflexivity.
  - symmetry. apply forallb_forall. intros r Hr. apply in_seqZ in Hr. destruct (H r Hr) as [t ->]. reflexivity.
Qed.

Lemma upd_box g mu x t : (mu < 4)%nat -> valid_grid g = true -> in_box x (glbSize g) -> 0 <= t < (glbSize g).[mu] -> in_box (upd x mu t) (glbSize g).
Proof.
  intros Hmu Hv Hx Ht. pose proof (glb_len g Hv) as Hl. apply in_box_nth in Hx as [L H]. apply in_box_nth. split; [now rewrite upd_length|].
  intros m Hm. destruct (Nat.eq_dec m mu) as [->|Hne]; [rewrite nth_upd_eq by lia; exact Ht|]. rewrite nth_upd_neq by congruence. now apply H.
Qed.
Lemma perp_pos_upd g mu x t : (mu < 4)%nat -> perp_pos g mu (upd x mu t) = perp_pos g mu x.
Proof.
  intros Hmu. unfold perp_pos. f_equal. unfold sel_dirs. apply map_ext_in. intros nu Hnu. apply others_in in Hnu. apply nth_upd_neq. intros E. destruct Hnu as [_ Hn]. now apply Hn.
Qed.

(** one direction of the transform *)
Definition D1 (L : list Z) (s : R) (mu : nat) (F : list Z -> site_val) (x : list Z) : site_val :=
  fun icpp => zsum L.[mu] (fun t => F (upd x mu t) icpp * cis (s * (2 * PI) * (IZR t * IZR x.[mu] / IZR L.[mu])))%C.

Section Step.
Context (g : grid) (Hv : valid_grid g = true) (Hf : glb_fits_int g) (sched : Z -> list Z) (Ho : orders sched).

Lemma fft_dir_step mu s data buf F : (mu < 4)%nat -> locd_delivers g mu -> holds g data F ->
  exists data' buf', fft_dir g sched s (Some (data, buf)) mu = Some (data', buf') /\ holds g data' (D1 (glbSize g) s mu F).
Proof.
  intros Hmu Hdel HF. cbn [fft_dir].
  destruct (all_ranks_some g (fun r => lx_to_locd g mu sched data (buf r) r)) as (b1 & -> & H1).
  { intros r Hr. destruct (Hdel _ sched data (buf r) (fun m i => proj2 (Ho m) i) r Hr) as [(o & E & _) _]. eauto. }
  set (b2 := fun r => fft_lines g sched mu r s (b1 r)).
  destruct (all_ranks_some g (fun r => locd_to_lx g mu sched b2 (data r) r)) as (d2 & -> & H2).
  { intros r Hr. destruct (Hdel _ sched b2 (data r) (fun m i => proj2 (Ho m) i) r Hr) as [_ (o & E & _)]. eauto. }
  exists d2, b2. split; [reflexivity|].
  pose proof (Gm_pos g Hv Hf mu Hmu) as HG. pose proof (M_spec g Hv Hf mu Hmu) as (HM & HM1 & HM2).
  set (M := max_locd_perp_size g mu) in *. set (L := (glbSize g).[mu]) in *.
  (* what the buffer holds *)
  assert (B1 : forall x, in_box x (glbSize g) -> 0 <= perp_pos g mu x / M < nranks g /\ b1 (perp_pos g mu x / M) (perp_pos g mu x mod M * L + x.[mu]) = Some (F x)).
  { intros x Hx. destruct (getLoclxAndRankOfCoords g x) as [r i] eqn:Eo.
    destruct (owner_fwd g x Hv Hx r i Eo) as (Hr & Hi & _).
    destruct (site_coords g r i Hv Hr Hi) as (x' & Hc & Hb & Ho'). assert (x' = x) by (apply (owner_inj g); congruence). subst x'.
    pose proof (make_spec g Hv Hf mu Hmu r i x Hc Hx) as Em. fold M L in Em.
    destruct (proj1 (locd_main g Hv Hf mu Hmu) r i Hr Hi) as (x' & q & j & _ & Em' & Hq & _). rewrite Em in Em'. injection Em' as <- <-.
    split; [exact Hq|]. destruct (Hdel _ sched data (buf (perp_pos g mu x / M)) (fun m i => proj2 (Ho m) i) _ Hq) as [(o & E & Hin) _].
    rewrite (H1 _ Hq) in E. injection E as <-. rewrite (Hin r i _ Hr Hi Em). now apply HF. }
  intros r i x Hr Hi Hc. destruct (site_coords g r i Hv Hr Hi) as (x' & Hc' & Hx & Ho'). assert (x' = x) by congruence. subst x'. clear Hc'.
  pose proof (make_spec g Hv Hf mu Hmu r i x Hc Hx) as Em. fold M L in Em.
  destruct (proj1 (locd_main g Hv Hf mu Hmu) r i Hr Hi) as (x' & q & j & _ & Em' & Hq & Hj & _ & _ & Hu). rewrite Em in Em'. injection Em' as <- <-.
  destruct (Hdel _ sched b2 (data r) (fun m i => proj2 (Ho m) i) r Hr) as [_ (o & E & Hin)].
  rewrite (H2 r Hr) in E. injection E as <-. rewrite (Hin _ _ _ Hq Hj Hu). unfold b2, fft_lines.
  set (p := perp_pos g mu x) in *. pose proof (xmu_bounds g Hv mu Hmu x Hx) as Hxm. fold L in Hxm |- *.
  assert (Ej : (p mod M * L + x.[mu]) / L = p mod M) by (rewrite Z.div_add_l, Z.div_small by lia; lia).
  pose proof (Z.mod_pos_bound p M HM) as Hpm.
  rewrite fft_lines_at; [|lia|apply (Ho _)|].
  2:{ rewrite Ej. apply (proj2 (Ho _)). split; [lia|]. unfold locd_size in Hj. fold L in Hj. nia. }
  rewrite Ej.
  assert (EL : forall t, 0 <= t < L -> b1 (p / M) (p mod M * L + t) = Some (F (upd x mu t))).
  { intros t Ht. pose proof (upd_box g mu x t Hmu Hv Hx Ht) as Hb. destruct (B1 _ Hb) as [_ E]. rewrite (perp_pos_upd g mu x t Hmu) in E. fold p in E.
    rewrite nth_upd_eq in E by (apply in_box_length in Hx; rewrite Hx, (glb_len g Hv); exact Hmu). exact E. }
  unfold fft_line. replace ((p mod M * L <=? p mod M * L + x.[mu]) && (p mod M * L + x.[mu] <? p mod M * L + L)) with true by lia.
  replace (forallb _ _) with true.
  2:{ symmetry. apply forallb_forall. intros t Ht. apply in_seqZ in Ht. rewrite (EL t Ht). reflexivity. }
  f_equal. apply functional_extensionality. intros icpp. unfold D1, dft_line. fold L. apply zsum_ext. intros t Ht. rewrite (EL t Ht).
  do 6 f_equal. lia.
Qed.
End Step.

(** ** All the directions *)
Definition Ds (L : list Z) (dirs : nat -> bool) (s : R) (mu : nat) (F : list Z -> site_val) : list Z -> site_val := if dirs mu then D1 L s mu F else F.
Definition D4 (L : list Z) (dirs : nat -> bool) (s : R) (F : list Z -> site_val) : list Z -> site_val :=
  Ds L dirs s 3 (Ds L dirs s 2 (Ds L dirs s 1 (Ds L dirs s 0 F))).
Lemma upd_same x mu : upd x mu x.[mu] = x.
Proof. revert mu. induction x as [|h t IH]; intros [|mu]; cbn; try reflexivity. now rewrite IH. Qed.
Lemma Ds_at L dirs s mu F x icpp : Ds L dirs s mu F x icpp =
  zsum (if dirs mu then L.[mu] else 1) (fun t => F (upd x mu (if dirs mu then t else x.[mu])) icpp * cis (s * (2 * PI) * (if dirs mu then IZR t * IZR x.[mu] / IZR L.[mu] else 0)))%C.
Proof.
  unfold Ds. destruct (dirs mu); [reflexivity|]. rewrite zsum_1, upd_same, Rmult_0_r, cis_0. ring.
Qed.
Lemma D4_dft L dirs s F a b c d icpp : D4 L dirs s F [a; b; c; d] icpp = dft L dirs s (fun x => F x icpp) [a; b; c; d].
Proof.
  unfold D4, dft. rewrite Ds_at. apply zsum_ext. intros t3 _. rewrite Ds_at, <- zsum_scal_r. cbn [nth upd]. apply zsum_ext. intros t2 _.
  rewrite Ds_at, <- !zsum_scal_r. cbn [nth upd]. apply zsum_ext. intros t1 _. rewrite Ds_at, <- !zsum_scal_r. cbn [nth upd]. apply zsum_ext. intros t0 _.
  rewrite !Rmult_plus_distr_l, !cis_plus. ring.
Qed.
Lemma box4 x L : length L = 4%nat -> in_box x L -> exists a b c d, x = [a; b; c; d].
Proof. intros HL H. apply in_box_length in H. rewrite HL in H. destruct x as [|a [|b [|c [|d [|]]]]]; try discriminate H. eauto. Qed.

(** a loop that changes each site once *)
Lemma fold_sites {A} (h : A -> A) : forall l (t : table A) i, NoDup l ->
  fold_left (fun t i => match t i with Some s => tset t i (h s) | None => t end) l t i = if in_dec Z.eq_dec i l then option_map h (t i) else t i.
Proof.
  induction l as [|a l IH]; intros t i Hn; [reflexivity|]. inversion Hn as [|? ? Ha Hn']; subst. cbn [fold_left]. rewrite IH by assumption.
  destruct (Z.eq_dec i a) as [->|Hne].
  - destruct (in_dec Z.eq_dec a l); [contradiction|]. destruct (in_dec Z.eq_dec a (a :: l)) as [_|H]; [|exfalso; apply H; now left].
    destruct (t a) eqn:E; [|now rewrite E]. unfold tset. now rewrite Z.eqb_refl.
  - match goal with |- (if _ then option_map h ?u else _) = _ => assert (Et : u = t i) end.
    { destruct (t a); [|reflexivity]. unfold tset. replace (i =? a) with false by lia. reflexivity. }
    rewrite Et. destruct (in_dec Z.eq_dec i l) as [H|H], (in_dec Z.eq_dec i (a :: l)) as [H'|H']; try reflexivity; cbn in H'; intuition congruence.
Qed.

Section Main.
Context (g : grid) (Hv : valid_grid g = true) (Hf : glb_fits_int g) (sched : Z -> list Z) (Ho : orders sched).
Lemma can_delivers mu : (mu < 4)%nat -> can_transform g mu -> locd_delivers g mu.
Proof.
  intros Hmu [H|H].
  - now apply locd_remap_one.
  - destruct (Nat.eqb_spec mu 0) as [->|Hne]; [now apply locd_remap_time|]. unfold locd_delivers. apply locd_remap_main; assumption.
Qed.
Lemma dirs_fold (dirs : nat -> bool) s : (forall mu, (mu < 4)%nat -> dirs mu = true -> can_transform g mu) ->
  forall data buf F, holds g data F ->
  exists data' buf', fold_left (fft_dir g sched s) (filter dirs [0; 1; 2; 3]%nat) (Some (data, buf)) = Some (data', buf') /\ holds g data' (D4 (glbSize g) dirs s F).
Proof.
  intros Hd. assert (St : forall mu (L : list nat) data buf F, (mu < 4)%nat -> holds g data F ->
    exists data' buf', fold_left (fft_dir g sched s) (filter dirs (mu :: L)) (Some (data, buf)) = fold_left (fft_dir g sched s) (filter dirs L) (Some (data', buf')) /\ holds g data' (Ds (glbSize g) dirs s mu F)).
  { intros mu L data buf F Hmu HF. cbn [filter]. unfold Ds. destruct (dirs mu) eqn:E.
    - destruct (fft_dir_step g Hv Hf sched Ho mu s data buf F Hmu) as (d' & b' & E' & H'); [apply can_delivers; auto|assumption|].
      exists d', b'. split; [|exact H']. cbn [fold_left]. rewrite E'. reflexivity.
    - exists data, buf. split; [reflexivity|assumption]. }
  intros data buf F H0.
  destruct (St 0%nat [1; 2; 3]%nat data buf F ltac:(lia) H0) as (d1 & b1 & -> & H1).
  destruct (St 1%nat [2; 3]%nat d1 b1 _ ltac:(lia) H1) as (d2 & b2 & -> & H2).
  destruct (St 2%nat [3]%nat d2 b2 _ ltac:(lia) H2) as (d3 & b3 & -> & H3).
  destruct (St 3%nat [] d3 b3 _ ltac:(lia) H3) as (d4 & b4 & -> & H4).
  exists d4, b4. split; [reflexivity|exact H4].
Qed.
Lemma norm_fold L (dirs : nat -> bool) : fold_left (fun n mu => n * IZR L.[mu])%R (filter dirs [0; 1; 2; 3]%nat) 1%R = dft_norm L dirs.
Proof. unfold dft_norm. cbn [filter]. destruct (dirs 0%nat), (dirs 1%nat), (dirs 2%nat), (dirs 3%nat); cbn [fold_left]; ring. Qed.
Theorem fft4d_main (dirs : nat -> bool) s normalize junk f F : (forall mu, (mu < 4)%nat -> dirs mu = true -> can_transform g mu) -> holds g f F ->
  exists f', fft4d g sched dirs s normalize junk f = Some f' /\
    holds g f' (fun x icpp => (dft (glbSize g) dirs s (fun y => F y icpp) x / RtoC (if normalize then dft_norm (glbSize g) dirs else 1))%C).
Proof.
  intros Hd HF. unfold fft4d. destruct (dirs_fold dirs s Hd f junk F HF) as (d & b & -> & H). rewrite norm_fold.
  assert (H' : holds g d (fun x icpp => dft (glbSize g) dirs s (fun y => F y icpp) x)).
  { intros r i x Hr Hi Hx. rewrite (H r i x Hr Hi Hx). f_equal. apply functional_extensionality. intros icpp.
    destruct (site_coords g r i Hv Hr Hi) as (x' & Hc & Hb & _). assert (x' = x) by congruence. subst x'.
    destruct (box4 x _ (glb_len g Hv) Hb) as (a & b' & c & e & ->). apply D4_dft. }
  destruct normalize; eexists; (split; [reflexivity|]); intros r i x Hr Hi Hx.
  - rewrite (fold_sites (fun s icpp => s icpp / RtoC (dft_norm (glbSize g) dirs))%C) by apply (Ho _).
    destruct (in_dec Z.eq_dec i (sched (locVol g))) as [_|Hn]; [|exfalso; apply Hn, (proj2 (Ho _)), Hi].
    rewrite (H' r i x Hr Hi Hx). reflexivity.
  - rewrite (H' r i x Hr Hi Hx). f_equal. apply functional_extensionality. intros icpp. field. intros E. injection E. lra.
Qed.
End Main.
