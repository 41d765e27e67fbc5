From Coq Require Import Reals Lra Lia.
From Verif Require Import Base ParModel ParSpec ParProofs ReduceModel ReduceSpec ReduceProofs ReduceMain FieldAlgModel FieldAlgSpec.
Open Scope Z_scope.

Section F.
Context (ix : Z -> Z -> Z) (nDeg nSites : Z) (bk : Z -> backend).
Hypothesis (Hix : distinct_addresses ix nSites nDeg) (Hn : 0 < nSites) (Hbk : forall k, 0 <= k <= nSites -> fits (bk k) 0 k).

Definition at_ (p site a : Z) : bool := existsb (fun d => a =? p + ix site d) (seqZ nDeg).
Lemma at_iff p s a : at_ p s a = true <-> exists d, 0 <= d < nDeg /\ a = p + ix s d.
Proof. unfold at_. rewrite existsb_exists. split; intros (d & H1 & H2); exists d; [apply in_seqZ in H1|rewrite in_seqZ]; lia. Qed.
Lemma at_false p s a : at_ p s a = false <-> forall d, 0 <= d < nDeg -> a <> p + ix s d.
Proof.
  rewrite <- not_true_iff_false, at_iff. split.
  - intros H d Hd E. apply H. eauto.
  - intros H (d & Hd & E). now apply (H d).
Qed.

Section Loop.
Context (f : R -> R -> R) (p q : Z) (Hpq : p = q \/ disjoint ix nDeg nSites p q).

Lemma sitewise_confined s degs : (forall d, In d degs -> 0 <= d < nDeg) ->
  confined (fun a => at_ p s a || at_ q s a) (at_ p s) (sitewise ix f p q s degs).
Proof.
  induction degs as [|d degs IH]; intros H; cbn [sitewise confined]; auto.
  assert (P : at_ p s (p + ix s d) = true) by (apply at_iff; exists d; split; auto; apply H; now left).
  assert (Q : at_ q s (q + ix s d) = true) by (apply at_iff; exists d; split; auto; apply H; now left).
  split; [now rewrite P|]. intros _. split; [now rewrite Q, orb_true_r|]. intros _. split; [exact P|].
  apply IH. intros e He. apply H. now right.
Qed.
Lemma loop_indep : indep (fun s => sitewise ix f p q s (seqZ nDeg)) (rangeZ 0 nSites) (fun s a => at_ p s a || at_ q s a) (at_ p).
Proof.
  split; [|split].
  - intros s _. apply sitewise_confined. intros d. apply in_seqZ.
  - intros s a _ H. now rewrite H.
  - intros i j a Hi Hj Hij H. apply in_rangeZ in Hi, Hj. apply at_iff in H. destruct H as (d & Hd & ->).
    apply orb_false_iff. split; apply at_false; intros e He E.
    + assert (E2 : ix i d = ix j e) by lia. apply Hix in E2; auto. lia.
    + destruct Hpq as [->|D].
      * assert (E2 : ix i d = ix j e) by lia. apply Hix in E2; auto. lia.
      * apply (D (p + ix i d)); [exists i, d; auto|exists j, e; auto].
Qed.
Lemma sitewise_run s degs (m : mem R) : 0 <= s < nSites -> (forall d, In d degs -> 0 <= d < nDeg) -> NoDup degs ->
  (forall d, In d degs -> run (sitewise ix f p q s degs) m (p + ix s d) = f (m (p + ix s d)) (m (q + ix s d))) /\
  (forall a, (forall d, In d degs -> a <> p + ix s d) -> run (sitewise ix f p q s degs) m a = m a).
Proof.
  intros Hs. revert m. induction degs as [|d degs IH]; intros m H ND; [split; [intros ? []|auto]|].
  apply NoDup_cons_iff in ND. destruct ND as [Nd ND]. cbn [sitewise run].
  set (m1 := store m (p + ix s d) (f (m (p + ix s d)) (m (q + ix s d)))).
  destruct (IH m1) as [I1 I2]; auto; [intros e He; apply H; now right|].
  assert (Rd : 0 <= d < nDeg) by (apply H; now left).
  assert (S : forall a, a <> p + ix s d -> m1 a = m a).
  { intros a Ha. unfold m1, store. destruct (Z.eqb_spec a (p + ix s d)); congruence. }
  split.
  - intros e [<-|He].
    + rewrite I2. { unfold m1, store. now rewrite Z.eqb_refl. }
      intros e He E. assert (E2 : ix s d = ix s e) by lia. apply Hix in E2; auto; [|apply H; now right]. destruct E2 as [_ ->]. auto.
    + assert (Re : 0 <= e < nDeg) by (apply H; now right).
      assert (Ned : e <> d) by (intros ->; auto).
      rewrite I1 by auto. f_equal; apply S.
      * intros E. assert (E2 : ix s e = ix s d) by lia. apply Hix in E2; auto. lia.
      * intros E. destruct Hpq as [<-|D].
        -- assert (E2 : ix s e = ix s d) by lia. apply Hix in E2; auto. lia.
        -- apply (D (p + ix s d)); [exists s, d; auto|exists s, e; split; auto].
  - intros a Ha. rewrite I2; [apply S; apply Ha; now left|]. intros e He. apply Ha. now right.
Qed.
Lemma loop_out m m' : loop ix nDeg nSites bk f p q m m' ->
  (forall s d, 0 <= s < nSites -> 0 <= d < nDeg -> m' (p + ix s d) = f (m (p + ix s d)) (m (q + ix s d))) /\
  (forall a, ~ occupies ix nDeg nSites p a -> m' a = m a).
Proof.
  intros H. unfold loop, PAR in H. rewrite launched_fits in H by (apply Hbk; lia).
  destruct (par_out _ _ _ _ _ _ (NoDup_rangeZ _ _) loop_indep H) as [O1 O2]. split.
  - intros s d Hs Hd. rewrite (O1 s); [|apply in_rangeZ; lia|apply at_iff; eauto].
    apply sitewise_run; auto; [intros e; apply in_seqZ|apply NoDup_seqZ|now apply in_seqZ].
  - intros a Ha. apply O2. intros s Hs. apply in_rangeZ in Hs. apply at_false. intros d Hd ->. apply Ha. exists s, d. auto.
Qed.
Lemma loop_ends m : exists m', loop ix nDeg nSites bk f p q m m'.
Proof. unfold loop, PAR. rewrite launched_fits by (apply Hbk; lia). eexists. apply par_exists. Qed.
End Loop.

Section Prod.
Context (p q b tmp : Z).
Hypothesis (Hb : forall a, occupies1 nSites b a -> ~ occupies ix nDeg nSites p a /\ ~ occupies ix nDeg nSites q a /\ ~ occupies1 nSites tmp a).

Lemma prod_confined s degs r : (forall d, In d degs -> 0 <= d < nDeg) ->
  confined (fun a => (a =? b + s) || at_ p s a || at_ q s a) (fun a => a =? b + s) (prod_site ix p q b s degs r).
Proof.
  revert r. induction degs as [|d degs IH]; intros r H; cbn [prod_site confined].
  - split; auto. apply Z.eqb_refl.
  - assert (P : at_ p s (p + ix s d) = true) by (apply at_iff; exists d; split; auto; apply H; now left).
    assert (Q : at_ q s (q + ix s d) = true) by (apply at_iff; exists d; split; auto; apply H; now left).
    split; [now rewrite P, orb_true_r|]. intros x. split; [now rewrite Q, !orb_true_r|]. intros y. apply IH. intros e He. apply H. now right.
Qed.
Lemma prod_run s degs (m : mem R) r :
  run (prod_site ix p q b s degs r) m (b + s) = (r + sumR (map (fun d => m (p + ix s d)%Z * m (q + ix s d)%Z) degs))%R.
Proof.
  revert r. induction degs as [|d degs IH]; intros r; cbn [prod_site run map].
  - unfold store. rewrite Z.eqb_refl. unfold sumR. cbn. lra.
  - rewrite IH. unfold sumR. cbn [fold_right]. lra.
Qed.
Lemma prod_out m m1 : PAR (bk nSites) 0 nSites (fun s => prod_site ix p q b s (seqZ nDeg) 0%R) m m1 ->
  (forall s, 0 <= s < nSites -> m1 (b + s) = sumR (map (fun d => m (p + ix s d)%Z * m (q + ix s d)%Z)%R (seqZ nDeg))) /\
  (forall a, ~ occupies1 nSites b a -> m1 a = m a).
Proof.
  intros H. unfold PAR in H. rewrite launched_fits in H by (apply Hbk; lia).
  assert (Ind : indep (fun s => prod_site ix p q b s (seqZ nDeg) 0%R) (rangeZ 0 nSites)
     (fun s a => (a =? b + s) || at_ p s a || at_ q s a) (fun s a => a =? b + s)).
  { split; [|split].
    - intros s _. apply prod_confined. intros d. apply in_seqZ.
    - intros s a _ ->. reflexivity.
    - intros i j a Hi Hj Hij E. apply in_rangeZ in Hi, Hj. apply Z.eqb_eq in E. subst a.
      destruct (Hb (b + i)) as (B1 & B2 & _); [exists i; auto|].
      apply orb_false_iff. split; [apply orb_false_iff; split|].
      + lia.
      + apply at_false. intros d Hd E. apply B1. exists j, d. auto.
      + apply at_false. intros d Hd E. apply B2. exists j, d. auto. }
  destruct (par_out _ _ _ _ _ _ (NoDup_rangeZ _ _) Ind H) as [O1 O2]. split.
  - intros s Hs. rewrite (O1 s); [|apply in_rangeZ; lia|apply Z.eqb_refl]. rewrite prod_run. lra.
  - intros a Ha. apply O2. intros s Hs. apply in_rangeZ in Hs. apply Z.eqb_neq. intros ->. apply Ha. exists s. auto.
Qed.
Lemma copy_out (m1 m2 : mem R) : PAR (bk nSites) 0 nSites (copy_site tmp b) m1 m2 ->
  (forall s, 0 <= s < nSites -> m2 (tmp + s) = m1 (b + s)) /\ (forall a, ~ occupies1 nSites tmp a -> m2 a = m1 a).
Proof.
  intros H. unfold PAR in H. rewrite launched_fits in H by (apply Hbk; lia).
  assert (Ind : indep (@copy_site tmp b) (rangeZ 0 nSites) (fun s a => (a =? b + s) || (a =? tmp + s)) (fun s a => a =? tmp + s)).
  { split; [|split].
    - intros s _. cbn. rewrite Z.eqb_refl. split; auto. intros _. split; [apply Z.eqb_refl|exact I].
    - intros s a _ ->. apply orb_true_r.
    - intros i j a Hi Hj Hij E. apply in_rangeZ in Hi, Hj. apply Z.eqb_eq in E. subst a.
      apply orb_false_iff. split; [|lia]. apply Z.eqb_neq. intros E. destruct (Hb (b + j)) as (_ & _ & B3); [exists j; auto|].
      apply B3. exists i. split; [lia|congruence]. }
  destruct (par_out _ _ _ _ _ _ (NoDup_rangeZ _ _) Ind H) as [O1 O2]. split.
  - intros s Hs. rewrite (O1 s); [|apply in_rangeZ; lia|apply Z.eqb_refl]. cbn. unfold store. now rewrite Z.eqb_refl.
  - intros a Ha. apply O2. intros s Hs. apply in_rangeZ in Hs. apply Z.eqb_neq. intros ->. apply Ha. exists s. auto.
Qed.
Lemma tmp_distinct : distinct_addresses (fun s _ : Z => tmp + s) nSites 1.
Proof. intros s d s' d' ? ? ? ?. lia. Qed.
Lemma reduce_frame nper (m m' : mem R) : nper <= nSites -> reduce_loop bk Rplus (fun s _ => tmp + s) 1 1 nSites nper m m' ->
  forall a, ~ occupies1 nSites tmp a -> m' a = m a.
Proof.
  intros Hp HL. revert Hp. induction HL as [nper m m' H Hm|nper m m1 m2 H stride nred HP HL IH]; intros Hp a Ha; auto.
  assert (B : 1 <= stride < nper) by (apply rem_half; auto).
  rewrite IH by (auto; lia).
  unfold PAR in HP. rewrite launched_fits in HP.
  2: { apply Hbk. unfold nred. assert (nper / 2 <= nper) by (apply Z.div_le_upper_bound; lia). assert (0 <= nper / 2) by (apply Z.div_pos; lia). lia. }
  assert (Dx : distinct_addresses (fun s _ : Z => tmp + s) (1 * nSites) 1) by (rewrite Z.mul_1_l; apply tmp_distinct).
  pose proof (round_indep Rplus (fun s _ : Z => tmp + s) 1 1 nSites ltac:(lia) Hn Dx nper ltac:(lia)) as RI.
  destruct (par_out _ _ _ _ _ _ (NoDup_rangeZ _ _) RI HP) as [_ O2]. apply O2.
  intros i Hi. apply not_true_iff_false. intros E. apply existsb_exists in E. destruct E as (d & _ & E). apply Z.eqb_eq in E.
  apply in_rangeZ in Hi.
  destruct (first_bounds (fun _ _ => 0) 1 1 nSites ltac:(lia) Hn nper i ltac:(lia) Hi) as (_ & _ & F & _).
  apply Ha. eexists. split; [|exact E]. lia.
Qed.

Lemma sum_fold l : sumR l = match total Rplus l with None => 0%R | Some v => v end.
Proof. apply fold_total; [intros x y z; ring|intros x y; ring|intros x; ring]. Qed.

Lemma scalar_prod_out ranks ranks' out : scalar_prod ix nDeg nSites bk p q b tmp ranks ranks' out ->
  out = dot ix nDeg nSites p q ranks /\
  Forall2 (fun m m' => forall a, ~ occupies1 nSites b a -> ~ occupies1 nSites tmp a -> m' a = m a) ranks ranks'.
Proof.
  intros (ms1 & ms2 & H1 & H2 & H3 & H4). split.
  - assert (A : associative Rplus) by (intros x y z; ring). assert (C : commutative Rplus) by (intros x y; ring).
    apply (red_total Rplus A C) in H4. unfold dot.
    assert (E : map (fun m' : mem R => m' tmp) ranks' = map (fun m => sumR (map (fun s => sumR (map (fun d => (m (p + ix s d)%Z * m (q + ix s d)%Z)%R) (seqZ nDeg))) (seqZ nSites))) ranks).
    { clear H4. revert ms1 ms2 ranks' H1 H2 H3. induction ranks as [|m ranks IH]; intros ms1 ms2 ranks' H1 H2 H3.
      - inversion H1; subst. inversion H2; subst. inversion H3; subst. reflexivity.
      - inversion H1 as [|? m1 ? ms1' P1 H1' X1 X2]; subst. inversion H2 as [|? m2 ? ms2' P2 H2' X1 X2]; subst. inversion H3 as [|? m3 ? ms3' P3 H3' X1 X2]; subst.
        cbn [map]. f_equal; [|eapply IH; eauto].
        destruct (prod_out _ _ P1) as [O1 _]. destruct (copy_out _ _ P2) as [O2 _].
        assert (Dx : distinct_addresses (fun s _ : Z => tmp + s) (1 * nSites) 1) by (rewrite Z.mul_1_l; apply tmp_distinct).
        pose proof (loop_total Rplus (fun s _ : Z => tmp + s) 1 1 nSites ltac:(lia) Hn Dx A C bk nSites m2 m3 P3 ltac:(lia)) as LT.
        specialize (LT ltac:(intros k Hk; apply Hbk; assert (nSites / 2 <= nSites) by (apply Z.div_le_upper_bound; lia); lia) 0 0 ltac:(lia) ltac:(lia)).
        cbv beta in LT. replace (tmp + 0 * nSites) with tmp in LT by ring.
        rewrite sum_fold. rewrite <- (map_ext_in (fun i => m2 (tmp + (i + nSites * 0)))).
        { now rewrite LT. }
        intros s Hs. apply in_seqZ in Hs. replace (s + nSites * 0) with s by ring. rewrite O2 by auto. now apply O1. }
    change (total Rplus (map (fun m' : mem R => m' tmp) ranks') = Some out) in H4. rewrite <- E, sum_fold, H4. reflexivity.
  - clear H4. revert ms1 ms2 ranks' H1 H2 H3. induction ranks as [|m ranks IH]; intros ms1 ms2 ranks' H1 H2 H3.
    + inversion H1; subst. inversion H2; subst. inversion H3; subst. constructor.
    + inversion H1 as [|? m1 ? ms1' P1 H1' X1 X2]; subst. inversion H2 as [|? m2 ? ms2' P2 H2' X1 X2]; subst. inversion H3 as [|? m3 ? ms3' P3 H3' X1 X2]; subst.
      constructor; [|eapply IH; eauto]. intros a Ba Ta.
      destruct (prod_out _ _ P1) as [_ O1]. destruct (copy_out _ _ P2) as [_ O2].
      rewrite (reduce_frame nSites m2 m3) by (auto; lia). rewrite O2, O1; auto.
Qed.
End Prod.

Lemma Forall2_dot p q ranks ranks' : Forall2 (fun m m' : mem R => forall a, occupies ix nDeg nSites p a \/ occupies ix nDeg nSites q a -> m' a = m a) ranks ranks' ->
  dot ix nDeg nSites p q ranks' = dot ix nDeg nSites p q ranks.
Proof.
  intros H. unfold dot. f_equal. induction H as [|m m' r r' H _ IH]; auto. cbn [map]. rewrite IH. f_equal. f_equal.
  apply map_ext_in. intros s Hs. f_equal. apply map_ext_in. intros d Hd. apply in_seqZ in Hs, Hd.
  rewrite !H; auto; [right|left]; exists s, d; auto.
Qed.
Lemma sum_scale c l : sumR (map (fun x => (c * x)%R) l) = (c * sumR l)%R.
Proof. unfold sumR. induction l as [|x l IH]; cbn; [ring|]. rewrite IH. ring. Qed.
Lemma sum_scale' {B} c (g : B -> R) l : sumR (map (fun x => (c * g x)%R) l) = (c * sumR (map g l))%R.
Proof. rewrite <- sum_scale, map_map. reflexivity. Qed.
Lemma dot_scaled c p q ranks ranks' : Forall2 (fun m m' : mem R => forall s d, 0 <= s < nSites -> 0 <= d < nDeg -> m' (p + ix s d) = (m (q + ix s d)%Z * c)%R) ranks ranks' ->
  dot ix nDeg nSites p p ranks' = (c * c * dot ix nDeg nSites q q ranks)%R.
Proof.
  intros H. unfold dot. rewrite <- sum_scale'. f_equal. induction H as [|m m' r r' H _ IH]; auto. cbn [map]. rewrite IH. f_equal.
  rewrite <- sum_scale'. f_equal. apply map_ext_in. intros s Hs. rewrite <- sum_scale'. f_equal. apply map_ext_in. intros d Hd.
  apply in_seqZ in Hs, Hd. rewrite H by auto. ring.
Qed.
Lemma dot_nonneg p ranks : (0 <= dot ix nDeg nSites p p ranks)%R.
Proof.
  assert (S : forall l, Forall (fun x => (0 <= x)%R) l -> (0 <= sumR l)%R).
  { unfold sumR. induction 1; cbn; lra. }
  unfold dot. apply S. apply Forall_forall. intros x Hx. apply in_map_iff in Hx. destruct Hx as (m & <- & _).
  apply S. apply Forall_forall. intros x Hx. apply in_map_iff in Hx. destruct Hx as (s & <- & _).
  apply S. apply Forall_forall. intros x Hx. apply in_map_iff in Hx. destruct Hx as (d & <- & _). apply Rle_0_sqr.
Qed.

Section Norm.
Context (p b tmp : Z).
Hypothesis (Hb : forall a, occupies1 nSites b a -> ~ occupies ix nDeg nSites p a /\ ~ occupies1 nSites tmp a).
Hypothesis (Ht : forall a, occupies1 nSites tmp a -> ~ occupies ix nDeg nSites p a).

Lemma Forall2_trans {X} (P Q S : X -> X -> Prop) l1 l2 l3 : (forall x y z, P x y -> Q y z -> S x z) ->
  Forall2 P l1 l2 -> Forall2 Q l2 l3 -> Forall2 S l1 l3.
Proof.
  intros K H. revert l3. induction H as [|x y l1 l2 Pxy H IH]; intros l3 H2; inversion H2; subst; constructor; eauto.
Qed.
Lemma normalize_out newNorm ranks ranks' ret : normalize ix nDeg nSites bk p b tmp newNorm ranks ranks' ret ->
  (dot ix nDeg nSites p p ranks <> 0)%R ->
  let norm r := sqrt (dot ix nDeg nSites p p r) in
  Forall2 (fun m m' : mem R => forall s d, 0 <= s < nSites -> 0 <= d < nDeg -> m' (p + ix s d) = (m (p + ix s d)%Z * (newNorm / norm ranks))%R) ranks ranks' /\
  norm ranks' = Rabs newNorm /\ (newNorm <> 0 -> ret * newNorm = norm ranks)%R.
Proof.
  intros (ms & n2 & HS & HM & ->) Hnz norm. set (f := (newNorm / sqrt n2)%R) in *.
  apply scalar_prod_out in HS; [|intros a Ha; destruct (Hb a Ha); auto]. destruct HS as [-> HF].
  assert (Pos : (0 < dot ix nDeg nSites p p ranks)%R) by (pose proof (dot_nonneg p ranks); lra).
  assert (Sq : (0 < norm ranks)%R) by now apply sqrt_lt_R0.
  assert (E : Forall2 (fun m m' : mem R => forall s d, 0 <= s < nSites -> 0 <= d < nDeg -> m' (p + ix s d) = (m (p + ix s d)%Z * f)%R) ranks ranks').
  { eapply Forall2_trans; [|exact HF|exact HM]. cbv beta. intros m m1 m2 H1 H2 s d Hs Hd.
    assert (O : occupies ix nDeg nSites p (p + ix s d)) by (exists s, d; auto).
    destruct (loop_out _ p p (or_introl eq_refl) _ _ H2) as [L _]. rewrite L by auto. rewrite H1; auto.
    - intros B. now destruct (Hb _ B).
    - intros T. now apply (Ht _ T). }
  split; [exact E|]. split.
  - unfold norm. rewrite (dot_scaled f p p ranks ranks' E).
    replace (f * f * dot ix nDeg nSites p p ranks)%R with (newNorm * newNorm)%R.
    + rewrite <- sqrt_Rsqr_abs. unfold Rsqr. reflexivity.
    + unfold f. fold (norm ranks). assert (Q : (norm ranks * norm ranks = dot ix nDeg nSites p p ranks)%R) by (apply sqrt_def; lra).
      rewrite <- Q. field. lra.
  - intros N. unfold f. fold (norm ranks). field. split; lra.
Qed.
End Norm.

Section Norm2.
Context (p q b tmp : Z).
Hypothesis (Hpq : p = q \/ disjoint ix nDeg nSites p q).
Hypothesis (Hb : forall a, occupies1 nSites b a -> ~ occupies ix nDeg nSites q a /\ ~ occupies1 nSites tmp a).
Hypothesis (Ht : forall a, occupies1 nSites tmp a -> ~ occupies ix nDeg nSites q a).
Lemma normalize_of_out newNorm ranks ranks' ret : normalize_of ix nDeg nSites bk p q b tmp newNorm ranks ranks' ret ->
  (dot ix nDeg nSites q q ranks <> 0)%R ->
  sqrt (dot ix nDeg nSites p p ranks') = (Rabs newNorm * sqrt (sqrt (dot ix nDeg nSites q q ranks)))%R.
Proof.
  intros (ms & n2 & HS & HM & ->) Hnz. set (fact := (newNorm / sqrt (sqrt n2))%R) in *.
  apply scalar_prod_out in HS; [|intros a Ha; destruct (Hb a Ha); auto]. destruct HS as [-> HF].
  set (N := dot ix nDeg nSites q q ranks) in *.
  assert (Pos : (0 < N)%R) by (pose proof (dot_nonneg q ranks); fold N in H; lra).
  assert (Sq : (0 < sqrt N)%R) by now apply sqrt_lt_R0.
  assert (Sq2 : (0 < sqrt (sqrt N))%R) by now apply sqrt_lt_R0.
  assert (E : Forall2 (fun m m' : mem R => forall s d, 0 <= s < nSites -> 0 <= d < nDeg -> m' (p + ix s d) = (m (q + ix s d)%Z * fact)%R) ranks ranks').
  { eapply Forall2_trans; [|exact HF|exact HM]. cbv beta. intros m m1 m2 H1 H2 s d Hs Hd.
    assert (O : occupies ix nDeg nSites q (q + ix s d)) by (exists s, d; auto).
    destruct (loop_out _ p q Hpq _ _ H2) as [L _]. rewrite L by auto. rewrite H1; auto.
    - intros B. now destruct (Hb _ B).
    - intros T. now apply (Ht _ T). }
  rewrite (dot_scaled fact p q ranks ranks' E). fold N.
  assert (Q : (sqrt (sqrt N) * sqrt (sqrt N) = sqrt N)%R) by (apply sqrt_def; lra).
  assert (Q2 : (sqrt N * sqrt N = N)%R) by (apply sqrt_def; lra).
  replace (fact * fact * N)%R with ((newNorm * sqrt (sqrt N)) * (newNorm * sqrt (sqrt N)))%R.
  - fold (Rsqr (newNorm * sqrt (sqrt N))%R). rewrite sqrt_Rsqr_abs, Rabs_mult. f_equal. apply Rabs_pos_eq. lra.
  - unfold fact. set (r := sqrt (sqrt N)) in *. assert (HN : (N = (r * r) * (r * r))%R) by (rewrite Q; auto).
    transitivity (newNorm / r * (newNorm / r) * ((r * r) * (r * r)))%R; [field; lra|]. now rewrite <- HN.
Qed.
End Norm2.
End F.
