From Verif Require Import Base GeometryModel GeometrySpec GeometryProofs OwnerProofs HaloProofs IldgModel IldgProofs BytesModel BytesSpec BytesProofs
  ParModel ParSpec ParProofs ReduceModel ReduceSpec ReduceProofs ReduceMain AllToAllRemap ChecksumModel ChecksumSpec ChecksumProofs.
From Coq Require Import Permutation.

(** ---- enumeration of the sites ---- *)
Lemma in_all_coords L : forall x, In x (all_coords L) <-> in_box x L.
Proof.
  induction L as [|n L IH]; intros x; cbn [all_coords].
  - split; [intros [<-|[]]; constructor|]. intros H. inversion H. now left.
  - rewrite in_flat_map. split.
    + intros (c & Hc & Hx). apply in_map_iff in Hx. destruct Hx as (y & <- & Hy). apply in_seqZ in Hc. constructor; auto. now apply IH.
    + intros H. inversion H as [|c ? y ? Hc Hy]; subst. exists c. split; [now apply in_seqZ|]. apply in_map. now apply IH.
Qed.

Lemma NoDup_flat_map {A B} (f : A -> list B) l : NoDup l -> (forall x, In x l -> NoDup (f x)) ->
  (forall x y b, In x l -> In y l -> In b (f x) -> In b (f y) -> x = y) -> NoDup (flat_map f l).
Proof.
  induction 1 as [|a l Ha Hl IH]; intros H1 H2; cbn [flat_map]; [constructor|].
  assert (D : forall b, In b (f a) -> ~ In b (flat_map f l)).
  { intros b Hb Hc. apply in_flat_map in Hc. destruct Hc as (y & Hy & Hby).
    assert (a = y) by (eapply H2; eauto; [left|right]; auto). subst. contradiction. }
  assert (Na : NoDup (f a)) by (apply H1; left; auto).
  assert (Nl : NoDup (flat_map f l)).
  { apply IH; [intros; apply H1; right; auto|intros; eapply H2; eauto; right; auto]. }
  clear - D Na Nl. revert D. induction Na as [|b fa Hb Hf IH]; intros D; cbn; auto.
  constructor; [|apply IH; intros; apply D; right; auto].
  rewrite in_app_iff. intros [Hc|Hc]; [contradiction|]. apply (D b); [left|]; auto.
Qed.

Lemma NoDup_all_coords L : NoDup (all_coords L).
Proof.
  induction L as [|n L IH]; cbn [all_coords]; [repeat constructor; intros []|].
  apply NoDup_flat_map; [apply NoDup_seqZ| |].
  - intros c _. apply Injective_map_NoDup; auto. intros a b E. congruence.
  - intros c c' b _ _ H1 H2. apply in_map_iff in H1. apply in_map_iff in H2.
    destruct H1 as (y & <- & _). destruct H2 as (y' & E & _). congruence.
Qed.

(** coordinates of a local site *)
Definition site_of (g : grid) (r i : Z) : list Z := match glb_coords g r i with Some x => x | None => [] end.

Lemma sites_perm g : valid_grid g = true ->
  Permutation (flat_map (fun r => map (site_of g r) (seqZ (locVol g))) (seqZ (nranks g))) (all_coords (glbSize g)).
Proof.
  intros Hv.
  assert (HS : forall r i, 0 <= r < nranks g -> 0 <= i < locVol g ->
     glb_coords g r i = Some (site_of g r i) /\ in_box (site_of g r i) (glbSize g) /\ getLoclxAndRankOfCoords g (site_of g r i) = (r, i)).
  { intros r i Hr Hi. destruct (site_coords g r i Hv Hr Hi) as (x & E & H). unfold site_of. rewrite E. auto. }
  apply NoDup_Permutation.
  - apply NoDup_flat_map; [apply NoDup_seqZ| |].
    + intros r Hr. apply in_seqZ in Hr.
      assert (G : forall l, NoDup l -> (forall i, In i l -> 0 <= i < locVol g) -> NoDup (map (site_of g r) l)).
      { induction 1 as [|i l Hi Hl IH]; intros H; cbn [map]; constructor; [|apply IH; intros; apply H; right; auto].
        intros Hin. apply in_map_iff in Hin. destruct Hin as (j & E & Hj).
        destruct (HS r i Hr) as (_ & _ & E1); [apply H; left; auto|].
        destruct (HS r j Hr) as (_ & _ & E2); [apply H; right; auto|]. rewrite E in E2. congruence. }
      apply G; [apply NoDup_seqZ|]. intros i Hi. now apply in_seqZ.
    + intros r r' x Hr Hr' H1 H2. apply in_seqZ in Hr. apply in_seqZ in Hr'.
      apply in_map_iff in H1. destruct H1 as (i & <- & Hi). apply in_map_iff in H2. destruct H2 as (j & E & Hj).
      apply in_seqZ in Hi. apply in_seqZ in Hj.
      destruct (HS r i Hr Hi) as (_ & _ & E1). destruct (HS r' j Hr' Hj) as (_ & _ & E2). rewrite E in E2. congruence.
  - apply NoDup_all_coords.
  - intros x. rewrite in_all_coords, in_flat_map. split.
    + intros (r & Hr & Hx). apply in_seqZ in Hr. apply in_map_iff in Hx. destruct Hx as (i & <- & Hi). apply in_seqZ in Hi. apply HS; auto.
    + intros Hx. destruct (getLoclxAndRankOfCoords g x) as [r i] eqn:E.
      destruct (owner_fwd g x Hv Hx r i E) as (Hr & Hi & _). exists r. split; [now apply in_seqZ|].
      apply in_map_iff. exists i. split; [|now apply in_seqZ].
      destruct (HS r i Hr Hi) as (_ & Hb & E'). apply (owner_inj g); auto. congruence.
Qed.

(** ---- the loop ---- *)
Section Chk.
Context (g : grid) (Hv : valid_grid g = true) (Hf : prodZ (glbSize g) <= two32).
Variables (shr32 : Z -> Z) (native : endianness) (ix : Z -> Z -> Z) (bk : Z -> backend).
Hypothesis (Hs : forall c, shr32 c = 0 \/ shr32 c = c).
Hypothesis (Hix : distinct_addresses ix (locVol g) 2).
Hypothesis (Hbk : forall k, 0 <= k <= locVol g -> fits (bk k) 0 k).
(** the field as seen on the global lattice, and stored by each rank *)
Variables (data : Z -> Z -> list (list Z)) (field : list Z -> list (list Z)).
Hypothesis (Hd : forall x r i, in_box x (glbSize g) -> getLoclxAndRankOfCoords g x = (r, i) -> data r i = field x).
Hypothesis (Hok : forall x, in_box x (glbSize g) -> ok_bytes (field x)).

Definition site_value (p : Z) (x : list Z) : Z :=
  rotl32 (crc32 (concat (map (fixEndianness BigEndian native) (field x)))) (ildg_position (glbSize g) x mod p).

Let Wb (i a : Z) : bool := (a =? ix i 0) || (a =? ix i 1).

Lemma body_indep r : indep (checksum_body shr32 native g ix r (data r)) (rangeZ 0 (locVol g)) Wb Wb.
Proof.
  split; [|split].
  - intros i Hi. unfold checksum_body. destruct (glb_coords g r i); cbn [confined]; auto. unfold Wb. split; [lia|]. split; [|exact I]. lia.
  - auto.
  - intros i j a Hi Hj Hij. apply in_rangeZ in Hi. apply in_rangeZ in Hj. unfold Wb. intros Ha.
    apply orb_false_intro; apply not_true_iff_false; intros E; apply Hij;
    (assert (Ea : a = ix i 0 \/ a = ix i 1) by lia); apply Z.eqb_eq in E;
    destruct Ea as [Ea|Ea]; rewrite Ea in E; apply Hix in E; lia.
Qed.

Lemma rank_buff r m0 buff : 0 <= r < nranks g ->
  PAR (bk (locVol g)) 0 (locVol g) (checksum_body shr32 native g ix r (data r)) m0 buff ->
  forall i, 0 <= i < locVol g -> buff (ix i 0) = site_value 29 (site_of g r i) /\ buff (ix i 1) = site_value 31 (site_of g r i).
Proof.
  intros Hr HP i Hi. unfold PAR in HP. rewrite launched_fits in HP by (apply Hbk; lia).
  destruct (par_out _ _ _ _ _ _ (NoDup_rangeZ _ _) (body_indep r) HP) as [O1 _].
  assert (Hin : In i (rangeZ 0 (locVol g))) by (apply in_rangeZ; auto).
  destruct (site_coords g r i Hv Hr Hi) as (x & E & Hb & Ho).
  assert (Ei : ix i 0 <> ix i 1) by (intros E1; apply Hix in E1; lia).
  assert (Es : site_of g r i = x) by (unfold site_of; now rewrite E).
  assert (RS : forall p, 0 < p <= 32 -> rotate shr32 (site_crc native (data r i)) (ildg_ivol g x mod p) = site_value p x).
  { intros p Hp. rewrite (Hd x r i Hb Ho). unfold site_value. rewrite site_crc_spec by auto. rewrite ildg_ivol_spec by auto.
    apply rotate_spec; auto; [apply crc32_range|]. pose proof (Z.mod_pos_bound (ildg_position (glbSize g) x) p). lia. }
  rewrite Es, <- !RS by lia.
  rewrite (O1 i (ix i 0)), (O1 i (ix i 1)); auto; try (unfold Wb; lia).
  unfold checksum_body. rewrite E. cbv zeta. cbn [run]. unfold store. rewrite !Z.eqb_refl.
  destruct (Z.eqb_spec (ix i 0) (ix i 1)); [contradiction|]. auto.
Qed.

Lemma lxor_assoc' : associative Z.lxor. Proof. intros a b c. symmetry. apply Z.lxor_assoc. Qed.
Lemma lxor_comm' : commutative Z.lxor. Proof. intros a b. apply Z.lxor_comm. Qed.

Lemma checksum_main check : ildgChecksum bk shr32 native g ix data check ->
  check 0 = fold_right Z.lxor 0 (map (site_value 29) (all_coords (glbSize g))) /\
  check 1 = fold_right Z.lxor 0 (map (site_value 31) (all_coords (glbSize g))).
Proof.
  intros (buffs & HF & HR).
  destruct (glbVol_split g Hv) as (_ & HN & HV).
  pose proof (field_reduce_main bk Z.lxor ix 2 (locVol g) buffs check lxor_assoc' lxor_comm' HV Hix Hbk HR) as HM.
  assert (HS : forall p d, (d = 0 /\ p = 29 \/ d = 1 /\ p = 31) ->
    flat_map (fun m : mem Z => map (fun i => m (ix i d)) (seqZ (locVol g))) buffs =
    flat_map (fun r => map (fun i => site_value p (site_of g r i)) (seqZ (locVol g))) (seqZ (nranks g))).
  { intros p d Hpd.
    assert (G : forall rs bs, Forall2 (fun rank buff => exists m0, PAR (bk (locVol g)) 0 (locVol g) (checksum_body shr32 native g ix rank (data rank)) m0 buff) rs bs ->
      (forall r, In r rs -> 0 <= r < nranks g) ->
      flat_map (fun m : mem Z => map (fun i => m (ix i d)) (seqZ (locVol g))) bs =
      flat_map (fun r => map (fun i => site_value p (site_of g r i)) (seqZ (locVol g))) rs).
    { induction 1 as [|r b rs bs (m0 & HP) HF' IH]; intros Hin; cbn [flat_map]; auto. f_equal; [|apply IH; intros; apply Hin; right; auto].
      apply map_ext_in. intros i Hi. apply in_seqZ in Hi.
      destruct (rank_buff r m0 b (Hin r (or_introl eq_refl)) HP i Hi) as [R1 R2].
      destruct Hpd as [[-> ->]|[-> ->]]; auto. }
    apply G; auto. intros r Hr. now apply in_seqZ. }
  assert (HP : forall p, Permutation (flat_map (fun r => map (fun i => site_value p (site_of g r i)) (seqZ (locVol g))) (seqZ (nranks g)))
     (map (site_value p) (all_coords (glbSize g)))).
  { intros p. eapply perm_trans; [|apply Permutation_map, (sites_perm g Hv)]. 
    rewrite flat_map_concat_map, flat_map_concat_map, concat_map, map_map. 
    assert (Q : map (fun r => map (fun i => site_value p (site_of g r i)) (seqZ (locVol g))) (seqZ (nranks g)) =
                map (fun r => map (site_value p) (map (site_of g r) (seqZ (locVol g)))) (seqZ (nranks g)))
      by (apply map_ext; intros r; now rewrite map_map).
    rewrite Q. apply Permutation_refl. }
  assert (HT : forall p d, (d = 0 /\ p = 29 \/ d = 1 /\ p = 31) -> check d = fold_right Z.lxor 0 (map (site_value p) (all_coords (glbSize g)))).
  { intros p d Hpd. assert (Hd2 : 0 <= d < 2) by lia. specialize (HM d Hd2). rewrite (HS p d Hpd) in HM.
    rewrite (total_perm Z.lxor lxor_assoc' lxor_comm' _ _ (HP p)) in HM.
    rewrite (fold_total Z.lxor 0); [now rewrite HM|exact lxor_assoc'|exact lxor_comm'|apply Z.lxor_0_l]. }
  split; apply HT; lia.
Qed.
End Chk.
