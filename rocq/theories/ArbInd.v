(** The independent non local links: numbering, and exchange of their values. *)
From Coq Require Import Permutation Sorted.
From Verif Require Import Base GeometryModel GeometrySpec GeometryProofs OwnerProofs HaloModel ArbModel ArbSpec ArbRec ArbComm.

(** ** numbering *)
Lemma ind_head e l : nth_error (ind_nonloc_links (e :: l)) 0 = Some (link_id e).
Proof.
  revert e. induction l as [|e' l IH]; intros e; [reflexivity|]. change (ind_nonloc_links (e :: e' :: l)) with
    (if link_id e =? link_id e' then ind_nonloc_links (e' :: l) else link_id e :: ind_nonloc_links (e' :: l)).
  destruct (Z.eqb_spec (link_id e) (link_id e')) as [E|]; [|reflexivity]. rewrite IH. congruence.
Qed.
Lemma ind_in l t : In t (ind_nonloc_links l) <-> exists e, In e l /\ link_id e = t.
Proof.
  induction l as [|e [|e' l] IH].
  - cbn. split; [tauto|]. intros (e & [] & _).
  - cbn. split; [intros [<-|[]]; exists e; auto|]. intros (e' & [->|[]] & ->). auto.
  - change (ind_nonloc_links (e :: e' :: l)) with (if link_id e =? link_id e' then ind_nonloc_links (e' :: l) else link_id e :: ind_nonloc_links (e' :: l)).
    destruct (Z.eqb_spec (link_id e) (link_id e')) as [E|E].
    + rewrite IH. split; intros (x & Hx & Ex); [exists x; split; [now right|assumption]|].
      destruct Hx as [<-|Hx]; [exists e'; split; [now left|congruence]|exists x; auto].
    + cbn [In]. rewrite IH. split.
      * intros [<-|(x & Hx & Ex)]; [exists e; split; [now left|reflexivity]|exists x; split; [now right|assumption]].
      * intros (x & [<-|Hx] & Ex); [now left|right; exists x; auto].
Qed.
Lemma ind_length l : (length (ind_nonloc_links l) <= length l)%nat.
Proof.
  induction l as [|e [|e' l] IH]; [cbn; lia|cbn; lia|].
  change (ind_nonloc_links (e :: e' :: l)) with (if link_id e =? link_id e' then ind_nonloc_links (e' :: l) else link_id e :: ind_nonloc_links (e' :: l)).
  cbn [length] in *. destruct (link_id e =? link_id e'); cbn [length]; lia.
Qed.
(** the keys of the independent links increase *)
Lemma ind_sorted (K : Z -> Z) l : StronglySorted (fun a b => ord a <= ord b) l ->
  (forall e, In e l -> ord e = K (link_id e)) -> (forall a b, In a l -> In b l -> ord a = ord b -> link_id a = link_id b) ->
  StronglySorted Z.lt (map K (ind_nonloc_links l)).
Proof.
  induction 1 as [|e l Hs IH Hf]; intros HK Hinj; [constructor|].
  assert (IH' := IH (fun a Ha => HK a (or_intror Ha)) (fun a b Ha Hb => Hinj a b (or_intror Ha) (or_intror Hb))).
  destruct l as [|e' l]; [cbn; constructor; constructor|].
  change (ind_nonloc_links (e :: e' :: l)) with (if link_id e =? link_id e' then ind_nonloc_links (e' :: l) else link_id e :: ind_nonloc_links (e' :: l)).
  destruct (Z.eqb_spec (link_id e) (link_id e')) as [E|E]; [assumption|].
  cbn [map]. constructor; [assumption|]. rewrite Forall_forall. intros k Hk. apply in_map_iff in Hk as (t & <- & Ht).
  apply ind_in in Ht as (x & Hx & <-). rewrite <- (HK x) by now right. rewrite <- (HK e) by now left.
  assert (ord e <= ord e') by (rewrite Forall_forall in Hf; apply Hf; now left).
  assert (ord e <> ord e'). { intros C. apply E. apply Hinj; [now left|right; now left|assumption]. }
  apply StronglySorted_inv in Hs as [_ Hs]. rewrite Forall_forall in Hs.
  destruct Hx as [<-|Hx]; [lia|]. specialize (Hs x Hx). cbn in Hs. lia.
Qed.
Lemma assign_ok l : forall n t, NoDup (map mov l) -> 0 <= n -> 16 * (n + Z.of_nat (length l)) + 16 <= 2 ^ 31 ->
  (forall e, In e l -> exists a, t (mov e) = Some a /\ 0 <= a < 16) ->
  exists t', assign l n t = Some t' /\ (forall i, ~ In i (map mov l) -> t' i = t i) /\
    (forall e, In e l -> exists k a, 0 <= k /\ t (mov e) = Some a /\ t' (mov e) = Some (a + (16 * (n + k) + 4)) /\
       nth_error (ind_nonloc_links l) (Z.to_nat k) = Some (link_id e)).
Proof.
  induction l as [|e l IH]; intros n t Hnd Hn Hb Ht.
  { exists t. split; [reflexivity|]. split; [auto|]. intros e []. }
  cbn [map] in Hnd. apply NoDup_cons_iff in Hnd as [Hni Hnd]. cbn [length] in Hb.
  destruct (Ht e (or_introl eq_refl)) as (a & Ea & Ba). cbn [assign].
  unfold nposs_path_flags, NONLOC_LINK_FLAG. rewrite Z.shiftl_mul_pow2 by lia. change (2 ^ 4) with 16.
  rewrite (lfm_add_ok t (mov e) a) by (auto; lia).
  set (t1 := tset t (mov e) (a + (n * 16 + 4))).
  assert (Hn' : n <= next_ind e l n <= n + 1) by (unfold next_ind; destruct l as [|e' l']; [lia|]; destruct (link_id e =? link_id e'); lia).
  destruct (IH (next_ind e l n) t1 Hnd) as (t' & E' & H1 & H2).
  - lia.
  - lia.
  - intros x Hx. destruct (Ht x (or_intror Hx)) as (b & Eb & Bb). exists b. split; [|assumption]. unfold t1. rewrite tset_neq; [assumption|].
    intros C. apply Hni. rewrite <- C. now apply in_map.
  - exists t'. split; [exact E'|]. split.
    + intros i Hi. rewrite H1 by (intros C; apply Hi; now right). unfold t1. apply tset_neq. intros ->. apply Hi. now left.
    + intros x [<-|Hx].
      * exists 0, a. split; [lia|]. split; [assumption|]. split.
        -- rewrite H1 by assumption. unfold t1. rewrite tset_eq. f_equal. lia.
        -- apply ind_head.
      * destruct (H2 x Hx) as (k & b & Hk & Eb & Eb' & Enth).
        assert (Eb0 : t (mov x) = Some b).
        { unfold t1 in Eb. rewrite tset_neq in Eb; [assumption|]. intros C. apply Hni. rewrite <- C. now apply in_map. }
        destruct l as [|e' l']; [destruct Hx|].
        change (ind_nonloc_links (e :: e' :: l')) with (if link_id e =? link_id e' then ind_nonloc_links (e' :: l') else link_id e :: ind_nonloc_links (e' :: l')).
        cbn [next_ind] in *. destruct (link_id e =? link_id e').
        -- exists k, b. auto.
        -- exists (k + 1), b. split; [lia|]. split; [assumption|]. split; [rewrite Eb'; f_equal; lia|].
           replace (Z.to_nat (k + 1)) with (S (Z.to_nat k)) by lia. exact Enth.
Qed.

(** ** a list sorted by displacement is the sequence of its blocks *)
Lemma filter_all {A} (f : A -> bool) l : (forall x, In x l -> f x = true) -> filter f l = l.
Proof. induction l as [|x l IH]; intros H; [reflexivity|]. cbn. rewrite (H x (or_introl eq_refl)). f_equal. apply IH. intros y Hy. apply H. now right. Qed.
Lemma filter_none {A} (f : A -> bool) l : (forall x, In x l -> f x = false) -> filter f l = [].
Proof. induction l as [|x l IH]; intros H; [reflexivity|]. cbn. rewrite (H x (or_introl eq_refl)). apply IH. intros y Hy. apply H. now right. Qed.
Lemma sorted_split {A} (D : A -> Z) a l : StronglySorted (fun x y => D x <= D y) l -> (forall x, In x l -> a <= D x) ->
  l = filter (fun x => D x =? a) l ++ filter (fun x => negb (D x =? a)) l.
Proof.
  induction 1 as [|x l Hs IH Hf]; intros Ha; [reflexivity|]. cbn [filter]. rewrite Forall_forall in Hf.
  destruct (Z.eqb_spec (D x) a) as [E|E]; cbn [negb].
  - cbn [app]. f_equal. apply IH. intros y Hy. apply Ha. now right.
  - assert (D x > a) by (specialize (Ha x (or_introl eq_refl)); lia).
    rewrite (filter_none (fun x => D x =? a)) by (intros y Hy; specialize (Hf y Hy); cbn in Hf; lia).
    cbn [app]. f_equal. symmetry. apply filter_all. intros y Hy. specialize (Hf y Hy). cbn in Hf. lia.
Qed.
Lemma filter_sorted {A} (R : A -> A -> Prop) (f : A -> bool) l : StronglySorted R l -> StronglySorted R (filter f l).
Proof.
  induction 1 as [|x l Hs IH Hf]; cbn [filter]; [constructor|]. destruct (f x); [|assumption]. constructor; [assumption|].
  rewrite Forall_forall in *. intros y Hy. apply filter_In in Hy as [Hy _]. auto.
Qed.
Lemma blocks_all {A} (D : A -> Z) n : forall a l, StronglySorted (fun x y => D x <= D y) l -> (forall x, In x l -> a <= D x < a + Z.of_nat n) ->
  flat_map (fun d => filter (fun x => D x =? d) l) (zfrom a n) = l.
Proof.
  induction n as [|n IH]; intros a l Hs Hb.
  { destruct l as [|x l]; [reflexivity|]. specialize (Hb x (or_introl eq_refl)). lia. }
  cbn [zfrom flat_map]. transitivity (filter (fun x => D x =? a) l ++ filter (fun x => negb (D x =? a)) l); [|symmetry; apply sorted_split; [assumption|intros x Hx; specialize (Hb x Hx); lia]]. f_equal.
  set (l2 := filter (fun x => negb (D x =? a)) l).
  assert (Hfm : forall B0, (forall d, In d B0 -> a < d) -> flat_map (fun d => filter (fun x => D x =? d) l) B0 = flat_map (fun d => filter (fun x => D x =? d) l2) B0).
  { induction B0 as [|d B0 IHB]; intros Hd; [reflexivity|]. cbn [flat_map]. rewrite IHB by (intros e He; apply Hd; now right). f_equal.
    specialize (Hd d (or_introl eq_refl)). unfold l2. clear - Hd. induction l as [|x l IHl]; [reflexivity|]. cbn [filter].
    destruct (Z.eqb_spec (D x) a) as [E|E]; cbn [negb filter]; rewrite IHl; [|reflexivity]. destruct (Z.eqb_spec (D x) d); [lia|reflexivity]. }
  rewrite Hfm by (intros d Hd; rewrite zfrom_in in Hd; lia). apply IH.
  - now apply filter_sorted.
  - intros x Hx. apply filter_In in Hx as [Hx Hne]. specialize (Hb x Hx). lia.
Qed.

Section I.
Context (g : grid) (Hv : valid_grid g = true) (Hg : 4 * prodZ (glbSize g) <= 2 ^ 31).
Notation G := (glbSize g).
Notation N := (nranks g).
Definition mT (t : Z) : mvt := mkMvt false false false (coordOfLx (t / 4) G) (Z.to_nat (t mod 4)).
Definition rkT (t : Z) : Z := rk g (mT t).
Definition lxT (t : Z) : Z := lxm g (mT t).
Definition idok (t : Z) : Prop := exists m, mv_ok g m /\ t = lid g m.

Lemma lid_dec m : mv_ok g m -> lid g m / 4 = glblxOfCoord g (m_x m) /\ lid g m mod 4 = Z.of_nat (m_mu m) /\ coordOfLx (lid g m / 4) G = m_x m.
Proof.
  intros [Hb Hm]. unfold lid. assert (E : (glblxOfCoord g (m_x m) * 4 + Z.of_nat (m_mu m)) / 4 = glblxOfCoord g (m_x m)) by (rewrite Z.div_add_l, Z.div_small by lia; lia).
  split; [exact E|]. split.
  - rewrite Z.add_comm, Z.mod_add, Z.mod_small by lia. reflexivity.
  - rewrite E. unfold glblxOfCoord. now apply coordOfLx_lxOfCoord.
Qed.
Lemma rkT_lid m : mv_ok g m -> rkT (lid g m) = rk g m /\ lxT (lid g m) = lxm g m.
Proof.
  intros H. destruct (lid_dec m H) as (_ & E2 & E3). unfold rkT, lxT, rk, lxm, mT. cbn [m_x m_mu]. rewrite E2, E3, Nat2Z.id. auto.
Qed.
Lemma lid_inj m m' : mv_ok g m -> mv_ok g m' -> rk g m = rk g m' -> lxm g m = lxm g m' -> lid g m = lid g m'.
Proof.
  intros [Hb Hm] [Hb' Hm'] E1 E2. unfold rk, lxm, lid in *.
  destruct (getLoclxAndRankOfCoords g (m_x m)) as [q i] eqn:E. destruct (getLoclxAndRankOfCoords g (m_x m')) as [q' i'] eqn:E'. cbn [fst snd] in *.
  assert (i = i') by lia. assert (m_mu m = m_mu m') by lia. subst.
  rewrite (owner_inj g (m_x m) (m_x m')) by congruence. congruence.
Qed.

Lemma own_shift t : idok t -> getLoclxAndRankOfGlblx g (Z.shiftr t 2) = Some (rkT t, snd (getLoclxAndRankOfCoords g (m_x (mT t)))) /\
  rankHostingGlblx g (Z.shiftr t 2) = Some (rkT t) /\ snd (getLoclxAndRankOfCoords g (m_x (mT t))) * 4 + Z.rem t 4 = lxT t.
Proof.
  intros (m & Hm & ->). pose proof Hm as [Hb Hmu]. destruct (lid_dec m Hm) as (E1 & E2 & E3). pose proof (glb_bounds g (m_x m) Hb) as Bg.
  rewrite Z.shiftr_div_pow2 by lia. change (2 ^ 2) with 4. rewrite E1. rewrite (owner_glblx g Hg Hv _ Hb).
  unfold rkT, lxT, rk, lxm, mT. cbn [m_x m_mu]. rewrite E3, E2, Nat2Z.id. rewrite Z.rem_mod_nonneg by (unfold lid; lia). rewrite E2.
  destruct (getLoclxAndRankOfCoords g (m_x m)) as [q i] eqn:E. cbn [fst snd]. split; [reflexivity|]. split; [|reflexivity].
  unfold rankHostingGlblx. rewrite (glbCoord_valid g _ Hv (fits g Hg)) by assumption. cbn [option_map]. f_equal.
  unfold glblxOfCoord. rewrite coordOfLx_lxOfCoord by assumption. unfold rankHostingSiteOfCoords, rankCoordsOfSiteOfCoord.
  unfold getLoclxAndRankOfCoords in E. cbv zeta in E. injection E as <- _. reflexivity.
Qed.
Lemma links_to_ask_ok l q : Forall idok l -> links_to_ask g l q = Some (map lxT (filter (fun t => rkT t =? q) l)).
Proof.
  induction 1 as [|t l Ht Hl' IH]; [reflexivity|]. cbn [links_to_ask]. destruct (own_shift t Ht) as (E1 & _ & E3). rewrite E1, IH. cbn [filter].
  destruct (rkT t =? q); [|reflexivity]. cbn [map]. now rewrite E3.
Qed.
Lemma count_asked_ok l q : Forall idok l -> count_asked g l q = Some (Z.of_nat (length (filter (fun t => rkT t =? q) l))).
Proof.
  induction 1 as [|t l Ht Hl' IH]; [reflexivity|]. cbn [count_asked]. destruct (own_shift t Ht) as (_ & E2 & _). rewrite E2, IH. cbn [filter].
  destruct (rkT t =? q); [|reflexivity]. cbn [length]. f_equal. lia.
Qed.

Context (ind : Z -> list Z) (Hid : forall r, 0 <= r < N -> Forall (fun t => idok t /\ rkT t <> r) (ind r)).
Context (Hso : forall r, 0 <= r < N -> StronglySorted (fun a b => key g r (mT a) <= key g r (mT b)) (ind r)).
Definition Bk (r d : Z) : list Z := map lxT (filter (fun t => rkT t =? down g r d) (ind r)).
Lemma HN : 0 < N.
Proof. rewrite nranks_prod. apply prodZ_pos. now apply nRanks_pos. Qed.
Lemma ask_ok r d : 0 <= r < N -> 1 <= d < N -> ask g ind d r = Some (down g r d, down g r d * N + r, Z.of_nat (length (Bk r d)), Bk r d).
Proof.
  intros Hr Hd. assert (Hi : Forall idok (ind r)) by (eapply Forall_impl; [|exact (Hid r Hr)]; tauto).
  unfold ask. fold (down g r d). rewrite (count_asked_ok _ _ Hi), (links_to_ask_ok _ _ Hi). unfold Bk. rewrite map_length, Z.eqb_refl. reflexivity.
Qed.
Lemma mT_rk t : idok t -> 0 <= rkT t < N /\ 0 <= lxT t < 4 * locVol g.
Proof. intros (m & Hm & ->). destruct (rkT_lid m Hm) as [-> ->]. apply own_bounds; assumption. Qed.
Definition dT (r t : Z) : Z := (r + N - rkT t) mod N.
Lemma dT_spec r t : 0 <= r < N -> idok t -> rkT t <> r -> 1 <= dT r t < N /\ forall d, 1 <= d < N -> (rkT t =? down g r d) = (dT r t =? d).
Proof.
  intros Hr Ht Hne. destruct (mT_rk t Ht) as [B _]. unfold dT. rewrite <- Z.rem_mod_nonneg by (pose proof HN; lia).
  fold (down g r (rkT t)). set (q := rkT t) in *.
  assert (E : down g r q = if r <? q then r + N - q else r - q).
  { unfold down. rewrite mod_small_or; [|apply HN|lia]. destruct (Z.ltb_spec r q); destruct (Z.ltb_spec (r + N - q) N); lia. }
  rewrite E. split; [destruct (Z.ltb_spec r q); lia|]. intros d Hd. unfold down. rewrite mod_small_or; [|apply HN|lia].
  destruct (Z.ltb_spec r q); destruct (Z.ltb_spec (r + N - d) N); lia.
Qed.
Lemma blocks_ind r : 0 <= r < N -> flat_map (fun d => filter (fun t => rkT t =? down g r d) (ind r)) (zfrom 1 (Z.to_nat (N - 1))) = ind r.
Proof.
  intros Hr. pose proof (Hid r Hr) as Hi. rewrite Forall_forall in Hi. pose proof (Hso r Hr) as Hs.
  transitivity (flat_map (fun d => filter (fun x => dT r x =? d) (ind r)) (zfrom 1 (Z.to_nat (N - 1)))); [|apply blocks_all].
  - clear Hs. assert (Hd : forall d, In d (zfrom 1 (Z.to_nat (N - 1))) -> 1 <= d < N) by (intros d Hd; rewrite zfrom_in in Hd; pose proof HN; lia).
    induction (zfrom 1 (Z.to_nat (N - 1))) as [|d D IH]; [reflexivity|]. cbn [flat_map]. rewrite IH by (intros e He; apply Hd; now right). f_equal.
    apply filter_ext_in. intros t Ht. destruct (Hi t Ht) as [H1 H2]. apply (dT_spec r t Hr H1 H2). apply Hd. now left.
  - revert Hi. clear - Hs Hv Hg Hr. induction Hs as [|t l Hs IH Hf]; intros Hi; constructor; [apply IH; auto; intros; apply Hi; now right|].
    rewrite Forall_forall in *. intros u Hu. specialize (Hf u Hu). cbn beta in Hf. unfold key in Hf. fold (rkT t) (rkT u) (lxT t) (lxT u) (dT r t) (dT r u) in Hf.
    destruct (Hi t (or_introl eq_refl)) as [H1 _]. destruct (Hi u (or_intror Hu)) as [H2 _].
    pose proof (mT_rk t H1) as [_ B1]. pose proof (mT_rk u H2) as [_ B2]. clear - Hf B1 B2.
    set (a := dT r t) in *. set (b := dT r u) in *. set (V := 4 * locVol g) in *. clearbody a b V. nia.
  - intros t Ht. destruct (Hi t Ht) as [H1 H2]. pose proof (proj1 (dT_spec r t Hr H1 H2)). lia.
Qed.
(** the values of the independent links arrive in the order of the list *)
Theorem nonloc_ok {T} (fetch : Z -> Z -> option T) r : 0 <= r < N ->
  exists rb, gather_nonloc g (setup_sender_receivers g ind) fetch r = Some rb /\
    (forall j t, nth_error (ind r) j = Some t -> rb (Z.of_nat j) = fetch (rkT t) (lxT t)) /\
    exists c, setup_sender_receivers g ind r = Some c /\ sumZ (nlinks_to_recv c) = Z.of_nat (length (ind r)).
Proof.
  intros Hr. destruct (gather_ok g HN Bk ind ask_ok fetch r Hr) as (rb & E & H). exists rb. split; [exact E|].
  set (F := fun d => filter (fun t => rkT t =? down g r d) (ind r)).
  pose proof (blocks_ind r Hr) as Hb. fold F in Hb. split.
  - intros j t Hj.
    assert (Hlt : (j < length (flat_map F (zfrom 1 (Z.to_nat (N - 1)))))%nat) by (rewrite Hb; apply nth_error_Some; congruence).
    destruct (offB_find F _ j Hlt) as (d & k & x & Hd & Ek & Ej & En). rewrite Hb, Hj in En. injection En as <-.
    assert (Hd' : 1 <= d < N) by (pose proof HN; lia).
    specialize (H d k (lxT t) Hd'). assert (Hk : nth_error (Bk r d) k = Some (lxT t)) by (unfold Bk; change (filter _ _) with (F d); now rewrite nth_error_map, Ek). specialize (H Hk).
    assert (Eo : offB (Bk r) d = offB F d).
    { unfold offB. f_equal. generalize (zfrom 1 (Z.to_nat (d - 1))) as D. induction D as [|e D IH]; [reflexivity|]. cbn [flat_map]. rewrite !app_length, IH. unfold Bk, F. now rewrite map_length. }
    assert (Hpos : 0 <= offB F d) by (unfold offB; lia).
    rewrite Ej. rewrite Nat2Z.inj_add, Z2Nat.id by assumption. rewrite <- Eo. rewrite H. f_equal.
    assert (Hin : In t (F d)) by (eapply nth_error_In; exact Ek). unfold F in Hin. apply filter_In in Hin as [_ Hin]. lia.
  - exists (comms_of g Bk r). split; [apply setup_ok; auto using HN, ask_ok|]. unfold comms_of. cbn [nlinks_to_recv].
    rewrite <- Hb. generalize (zfrom 1 (Z.to_nat (N - 1))) as D. induction D as [|d D IH]; [reflexivity|]. cbn [filter flat_map].
    rewrite app_length, Nat2Z.inj_add, <- IH. unfold ne. replace (length (Bk r d)) with (length (F d)) by (unfold Bk, F; now rewrite map_length).
    destruct (Z.eqb_spec (Z.of_nat (length (F d))) 0) as [E0|E0]; cbn [negb map]; [lia|]. unfold sumZ. cbn [fold_right]. unfold Bk at 1, F at 1. rewrite map_length. reflexivity.
Qed.
End I.
