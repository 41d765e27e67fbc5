(** Paths: from the declaration to the values, all the ranks together. *)
From Coq Require Import Permutation Sorted.
From Verif Require Import Base GeometryModel GeometrySpec GeometryProofs OwnerProofs HaloModel ArbModel ArbSpec ArbRec ArbComm ArbInd ArbMain.

Lemma ssorted_map {A} (K : A -> Z) l : StronglySorted Z.lt (map K l) -> StronglySorted (fun a b => K a <= K b) l /\ NoDup l.
Proof.
  induction l as [|x l IH]; intros H; [split; constructor|]. cbn [map] in H. apply StronglySorted_inv in H as [H1 H2]. destruct (IH H1) as [I1 I2].
  rewrite Forall_forall in H2. split.
  - constructor; [assumption|]. rewrite Forall_forall. intros y Hy. specialize (H2 (K y) (in_map K l y Hy)). lia.
  - constructor; [|assumption]. intros Hx. specialize (H2 (K x) (in_map K l x Hx)). lia.
Qed.
Lemma seqZ_from n : seqZ (Z.of_nat n) = zfrom 0 n.
Proof.
  unfold seqZ. rewrite Nat2Z.id. enough (H : forall n a, map Z.of_nat (seq a n) = zfrom (Z.of_nat a) n) by apply (H n 0%nat). clear n.
  induction n as [|n IH]; intros a; [reflexivity|]. cbn [seq map zfrom]. rewrite IH. do 2 f_equal. lia.
Qed.

Section NL.
Context (g : grid) (r : Z).
Lemma nl_of_in L : forall k e, In e (nl_of g r k L) <-> exists i m, nth_error L i = Some m /\ rk g m <> r /\ e = entry_of g r (k + Z.of_nat i) m.
Proof.
  induction L as [|m L IH]; intros k e; cbn [nl_of].
  { split; [intros []|]. intros ([|i] & m & H & _); discriminate H. }
  rewrite in_app_iff, IH. split.
  - intros [H|(i & m' & H1 & H2 & H3)].
    + destruct (Z.eqb_spec (rk g m) r) as [E|E]; [destruct H|]. destruct H as [<-|[]]. exists 0%nat, m. rewrite Z.add_0_r. auto.
    + exists (S i), m'. split; [exact H1|]. split; [exact H2|]. rewrite H3. f_equal. lia.
  - intros ([|i] & m' & H1 & H2 & H3).
    + injection H1 as <-. left. destruct (Z.eqb_spec (rk g m) r) as [E|E]; [contradiction|]. left. rewrite H3. f_equal. lia.
    + right. exists i, m'. split; [exact H1|]. split; [exact H2|]. rewrite H3. f_equal. lia.
Qed.
Lemma nl_of_mov L : forall k e, In e (nl_of g r k L) -> k <= mov e < k + Z.of_nat (length L).
Proof.
  intros k e H. apply nl_of_in in H as (i & m & H & _ & ->). cbn [mov entry_of]. assert (i < length L)%nat by (apply nth_error_Some; congruence). lia.
Qed.
Lemma nl_of_NoDup L : forall k, NoDup (map mov (nl_of g r k L)).
Proof.
  induction L as [|m L IH]; intros k; cbn [nl_of map]; [constructor|]. destruct (rk g m =? r); cbn [app map]; [apply IH|]. constructor; [|apply IH].
  intros H. apply in_map_iff in H as (e & E & H). apply nl_of_mov in H. cbn [mov entry_of] in E. lia.
Qed.
Lemma nl_of_length L : forall k, (length (nl_of g r k L) <= length L)%nat.
Proof. induction L as [|m L IH]; intros k; cbn [nl_of length]; [lia|]. rewrite app_length. specialize (IH (k + 1)). destruct (rk g m =? r); cbn [length]; lia. Qed.
End NL.

Section F.
Context (g : grid) (Hv : valid_grid g = true) (Hg : 4 * prodZ (glbSize g) <= 2 ^ 31) (Hl : 64 * locVol g <= 2 ^ 31).
Notation G := (glbSize g).
Notation N := (nranks g).
Lemma mvs_mv_ok l : forall st su x, in_box x G -> Forall (fun m => (fst m < 4)%nat) l -> Forall (mv_ok g) (mvs g st su x l).
Proof.
  induction l as [|m l IH]; intros st su x Hx Hl'; cbn [mvs]; [constructor|]. apply Forall_cons_iff in Hl' as [Hm Hl'].
  assert (in_box (landed g x m) G) by (apply shift_box; assumption). constructor; [|now apply IH].
  split; cbn [m_x m_mu]; [destruct (snd m); assumption|assumption].
Qed.
Lemma key_T r m : mv_ok g m -> key g r (mT g (lid g m)) = key g r m.
Proof. intros H. destruct (rkT_lid g Hv m H) as [E1 E2]. unfold key. fold (rkT g (lid g m)) (lxT g (lid g m)). now rewrite E1, E2. Qed.
Lemma key_inj r m m' : 0 <= r < N -> mv_ok g m -> mv_ok g m' -> key g r m = key g r m' -> lid g m = lid g m'.
Proof.
  intros Hr H H' E. destruct (own_bounds g Hv m H) as [B1 B2]. destruct (own_bounds g Hv m' H') as [B1' B2']. unfold key in E.
  assert (H2 : (r + N - rk g m) mod N = (r + N - rk g m') mod N /\ lxm g m = lxm g m').
  { clear - E B2 B2'. set (a := (r + N - rk g m) mod N) in *. set (b := (r + N - rk g m') mod N) in *. set (V := 4 * locVol g) in *. clearbody a b V.
    assert (a = b) by nia. subst. lia. }
  destruct H2 as [H2 H3]. apply lid_inj; auto. clear - B1 B1' H2 Hr. set (q := rk g m) in *. set (q' := rk g m') in *. clearbody q q'.
  assert (HNN : 0 < N) by lia. rewrite <- (Z.rem_mod_nonneg (r + N - q)) in H2 by lia. rewrite <- (Z.rem_mod_nonneg (r + N - q')) in H2 by lia.
  rewrite (mod_small_or g HNN (r + N - q)) in H2 by lia. rewrite (mod_small_or g HNN (r + N - q')) in H2 by lia.
  destruct (Z.ltb_spec (r + N - q) N); destruct (Z.ltb_spec (r + N - q') N); lia.
Qed.

Context (sort : Z -> list movement_link_id -> list movement_link_id).
Context (Hsort : forall r l, Permutation (sort r l) l /\ StronglySorted (fun a b => ord a <= ord b) (sort r l)).
Context (site : Z -> Z -> list Z) (Hsite : forall r i, 0 <= r < N -> 0 <= i < locVol g -> in_box (site r i) G /\ getLoclxAndRankOfCoords g (site r i) = (r, i)).
Context (P : Z -> list (list piece)) (HP : forall r, 0 <= r < N -> Forall (path_ok g) (P r) /\ 16 * n_steps (P r) + 16 <= 2 ^ 31).
Notation L r := (all_mvs g (site r) (P r)).
Notation nnl r := (sort r (nl_of g r 0 (L r))).
Definition npP (r : Z) : Z := Z.of_nat (length (P r)).
Definition nmP (r : Z) : Z := n_steps (P r).
Definition csP (r : Z) : list cmd := flat_map path_cmds (P r).

Lemma L_ok r : 0 <= r < N -> Forall (mv_ok g) (L r).
Proof.
  intros Hr. destruct (HP r Hr) as [Hp _]. unfold all_mvs. apply Forall_flat_map. eapply Forall_impl; [|exact Hp]. intros p [_ Hq].
  assert (Hpm : forall b q, piece_ok g q -> Forall (mv_ok g) (piece_mvs g (site r) b q)).
  { intros b q (Q1 & _ & Q3). unfold piece_mvs. apply mvs_mv_ok; [now apply Hsite|assumption]. }
  destruct p as [|q l]; cbn [path_mvs]; [constructor|]. apply Forall_cons_iff in Hq as [Hq Hq']. apply Forall_app. split; [auto|].
  apply Forall_flat_map. eapply Forall_impl; [|exact Hq']. auto.
Qed.
Lemma nnl_in r e : 0 <= r < N -> In e (nnl r) <-> exists i m, nth_error (L r) i = Some m /\ mv_ok g m /\ rk g m <> r /\ e = entry_of g r (Z.of_nat i) m.
Proof.
  intros Hr. destruct (Hsort r (nl_of g r 0 (L r))) as [Hp _]. rewrite Hp. rewrite nl_of_in. pose proof (L_ok r Hr) as HL. rewrite Forall_forall in HL. split.
  - intros (i & m & H1 & H2 & H3). exists i, m. split; [exact H1|]. split; [apply HL; eapply nth_error_In; exact H1|]. auto.
  - intros (i & m & H1 & _ & H2 & H3). exists i, m. auto.
Qed.
Lemma finished_ok r : 0 <= r < N -> exists s, finished g sort npP nmP csP r = Some (s, ind_nonloc_links (nnl r)) /\
  npaths s = npP r /\ ntot_mov s = nmP r /\ nmP r = Z.of_nat (length (L r)) /\
  (forall i, i < 0 \/ nmP r < i -> link_for_movements s i = None) /\
  forall i m, nth_error (L r) i = Some m -> exists (n : bool) a, 0 <= a /\
    link_for_movements s (Z.of_nat i) = Some (b2z (m_start m) + 8 * b2z (m_summ m) + 2 * b2z (m_dag m) + 4 * b2z n + 16 * a) /\
    if n then rk g m <> r /\ nth_error (ind_nonloc_links (nnl r)) (Z.to_nat a) = Some (lid g m) else rk g m = r /\ a = lxm g m.
Proof.
  intros Hr. destruct (HP r Hr) as [Hp Hb]. pose proof (L_ok r Hr) as HL. rewrite Forall_forall in HL.
  destruct (record_ok g Hg Hv r Hr Hl (site r) (fun i => Hsite r i Hr) (P r) Hp) as (s & E & (R1 & R2 & R3 & R4 & R5 & R6) & C1 & C2).
  destruct (Hsort r (nl_of g r 0 (L r))) as [Hperm Hsrt].
  assert (Hlen : nmP r = Z.of_nat (length (L r))) by (unfold nmP; congruence).
  unfold finished, npP, nmP, csP. rewrite E. unfold finished_last_path. rewrite C1, C2, R1, R2, !Z.eqb_refl. cbn [negb]. rewrite R4.
  destruct (assign_ok (nnl r) 0 (link_for_movements s)) as (t & Et & K1 & K2).
  - eapply Permutation_NoDup; [symmetry; apply Permutation_map; exact Hperm|]. apply nl_of_NoDup.
  - lia.
  - rewrite (Permutation_length Hperm). pose proof (nl_of_length g r (L r) 0). unfold nmP in Hlen. lia.
  - intros e He. apply (nnl_in r e Hr) in He as (i & m & H1 & H2 & H3 & ->). cbn [mov entry_of]. exists (code0 g r m). split; [now apply R5|].
    unfold code0. destruct (Z.eqb_spec (rk g m) r) as [|_]; [contradiction|]. pose proof (flags_bounds m). lia.
  - rewrite Et. eexists. split; [reflexivity|]. cbn [npaths ntot_mov link_for_movements]. split; [reflexivity|]. split; [reflexivity|]. split; [exact Hlen|].
    assert (Hnm : forall i, In i (map mov (nnl r)) -> exists k m, i = Z.of_nat k /\ nth_error (L r) k = Some m /\ rk g m <> r).
    { intros i Hi. apply in_map_iff in Hi as (e & <- & He). apply (nnl_in r e Hr) in He as (k & m & H1 & H2 & H3 & ->). exists k, m. auto. }
    split.
    { intros i Hi. unfold nmP in *. rewrite K1; [apply R6; lia|]. intros C. destruct (Hnm i C) as (k & m & -> & H1 & _).
      assert (k < length (L r))%nat by (apply nth_error_Some; congruence). lia. }
    intros i m Hi. destruct (Z.eq_dec (rk g m) r) as [Er|Er].
    + exists false, (lxm g m). pose proof (HL m (nth_error_In _ _ Hi)) as Hm. destruct (own_bounds g Hv m Hm) as [_ B2]. split; [lia|]. split; [|auto].
      rewrite K1; [|intros C; destruct (Hnm _ C) as (k & m' & Ek & H1 & H2); apply Nat2Z.inj in Ek; subst k; congruence].
      rewrite (R5 i m Hi). unfold code0, flags. rewrite Er, Z.eqb_refl. f_equal. cbn [b2z]. ring.
    + destruct (K2 (entry_of g r (Z.of_nat i) m)) as (k & a & Hk & Ea & Ea' & En).
      { apply nnl_in; [assumption|]. exists i, m. split; [exact Hi|]. split; [apply HL; eapply nth_error_In; exact Hi|]. auto. }
      cbn [mov entry_of link_id] in *. exists true, k. split; [exact Hk|]. split; [|auto].
      rewrite Ea'. rewrite (R5 i m Hi) in Ea. injection Ea as <-. unfold code0, flags. destruct (Z.eqb_spec (rk g m) r) as [|_]; [contradiction|]. f_equal. cbn [b2z]. ring.
Qed.
Lemma ind_list_eq r : 0 <= r < N -> ind_list g sort npP nmP csP r = ind_nonloc_links (nnl r).
Proof. intros Hr. unfold ind_list. destruct (finished_ok r Hr) as (s & E & _). now rewrite E. Qed.
Lemma ind_list_in r t : 0 <= r < N -> In t (ind_list g sort npP nmP csP r) <-> exists m, In m (L r) /\ mv_ok g m /\ rk g m <> r /\ t = lid g m.
Proof.
  intros Hr. rewrite ind_list_eq by assumption. rewrite ind_in. split.
  - intros (e & He & <-). apply (nnl_in r e Hr) in He as (i & m & H1 & H2 & H3 & ->). exists m. split; [eapply nth_error_In; exact H1|]. auto.
  - intros (m & Hm & H2 & H3 & ->). apply In_nth_error in Hm as (i & Hi). exists (entry_of g r (Z.of_nat i) m). split; [|reflexivity]. apply nnl_in; [assumption|]. exists i, m. auto.
Qed.
Lemma ind_list_sorted r : 0 <= r < N -> StronglySorted Z.lt (map (fun t => key g r (mT g t)) (ind_list g sort npP nmP csP r)).
Proof.
  intros Hr. rewrite ind_list_eq by assumption. destruct (Hsort r (nl_of g r 0 (L r))) as [_ Hs]. apply (ind_sorted (fun t => key g r (mT g t))); [exact Hs| |].
  - intros e He. apply (nnl_in r e Hr) in He as (i & m & H1 & H2 & H3 & ->). cbn [ord link_id entry_of]. symmetry. now apply key_T.
  - intros a b Ha Hb. apply (nnl_in r a Hr) in Ha as (i & m & H1 & H2 & H3 & ->). apply (nnl_in r b Hr) in Hb as (i' & m' & H1' & H2' & H3' & ->).
    cbn [ord link_id entry_of]. intros E. eapply key_inj; eauto.
Qed.
Lemma gathered {T} (fetch : Z -> Z -> option T) r : 0 <= r < N ->
  exists rb, gather_nonloc g (setup_sender_receivers g (ind_list g sort npP nmP csP)) fetch r = Some rb /\
    (forall j t, nth_error (ind_list g sort npP nmP csP r) j = Some t -> rb (Z.of_nat j) = fetch (rkT g t) (lxT g t)) /\
    exists c, setup_sender_receivers g (ind_list g sort npP nmP csP) r = Some c /\ sumZ (nlinks_to_recv c) = Z.of_nat (length (ind_list g sort npP nmP csP r)).
Proof.
  intros Hr. apply (nonloc_ok g Hv Hg); [| |assumption]; intros q Hq.
  - rewrite Forall_forall. intros t Ht. apply (ind_list_in q t Hq) in Ht as (m & _ & H2 & H3 & ->). split; [exists m; auto|].
    destruct (rkT_lid g Hv m H2) as [-> _]. assumption.
  - apply (ssorted_map (fun t => key g q (mT g t))). now apply ind_list_sorted.
Qed.
Context {T : Type} (zero one : T) (mul muldag add : T -> T -> T) (U : list Z -> nat -> T) (fetch : Z -> Z -> option T).
Context (Hf : forall q i mu, 0 <= q < N -> 0 <= i < locVol g -> (mu < 4)%nat -> fetch q (4 * i + Z.of_nat mu) = Some (U (site q i) mu)).
Lemma fetch_m m : mv_ok g m -> fetch (rk g m) (lxm g m) = Some (U (m_x m) (m_mu m)).
Proof.
  intros [Hb Hm]. unfold rk, lxm. destruct (getLoclxAndRankOfCoords g (m_x m)) as [q i] eqn:E. cbn [fst snd].
  destruct (owner_fwd g _ Hv Hb _ _ E) as (B1 & B2 & _). rewrite (Z.mul_comm i). rewrite Hf by assumption.
  destruct (Hsite q i B1 B2) as [_ Ho]. rewrite (owner_inj g (site q i) (m_x m)); [reflexivity|..]; try assumption; try (apply Hsite; assumption); congruence.
Qed.
Theorem paths_ok (before : Z -> table T) r : 0 <= r < N -> P r <> [] ->
  exists res, compute_paths g sort zero one mul muldag add npP nmP csP fetch before r = Some res /\
    (forall i p, nth_error (P r) i = Some p -> res (Z.of_nat i) = Some (path_value zero one mul muldag add G U (site r) p)) /\
    (forall i, i < 0 \/ Z.of_nat (length (P r)) <= i -> res i = before r i).
Proof.
  intros Hr Hne. destruct (finished_ok r Hr) as (s & Ef & N1 & N2 & N3 & _ & N4). destruct (gathered fetch r Hr) as (nl & Eg & G2 & _).
  unfold compute_paths. rewrite Ef, Eg. unfold compute. rewrite N1, N2, N3, seqZ_from.
  pose proof (L_ok r Hr) as HL. rewrite Forall_forall in HL.
  destruct (all_paths zero one mul muldag add U G (npP r) (before r) (link_for_movements s) nl (fetch r) g eq_refl (site r) (P r) zero) as (st & vals & a & w & E & (S1 & S2 & S3 & S4 & S5) & Ev).
  - assumption.
  - destruct (HP r Hr) as [Hp _]. eapply Forall_impl; [|exact Hp]. intros p [H1 H2]. split; [assumption|]. eapply Forall_impl; [|exact H2]. intros q (_ & H & _). assumption.
  - intros i m Hi. destruct (N4 i m Hi) as (n & b & Hb & E & Hn). exists n, b. split; [assumption|]. split; [exact E|].
    pose proof (HL m (nth_error_In _ _ Hi)) as Hm. rewrite <- (fetch_m m Hm). destruct n.
    + destruct Hn as [Hn1 Hn2]. rewrite <- (Z2Nat.id b) by assumption. destruct (rkT_lid g Hv m Hm) as [<- <-]. apply G2. rewrite ind_list_eq by assumption. exact Hn2.
    + destruct Hn as [-> ->]. reflexivity.
  - reflexivity.
  - unfold all_mvs. rewrite E.
    assert (Elen : length (P r) = S (length vals)) by (apply (f_equal (@length T)) in Ev; rewrite app_length, map_length in Ev; cbn [length] in Ev; lia).
    unfold npP. rewrite Elen. replace (Z.of_nat (S (length vals)) - 1) with (Z.of_nat (length vals)) by lia.
    unfold summassign. rewrite S3, S1, Z.eqb_refl. cbn [negb]. eexists. split; [reflexivity|]. split.
    + intros i p Hi. assert (Hi' : nth_error (vals ++ [add a w]) i = Some (path_value zero one mul muldag add G U (site r) p)) by (rewrite Ev, nth_error_map, Hi; reflexivity).
      assert (i < length (P r))%nat by (apply nth_error_Some; congruence).
      destruct (Nat.eq_dec i (length vals)) as [->|Hni].
      * rewrite nth_error_app2, Nat.sub_diag in Hi' by lia. cbn in Hi'. injection Hi' as <-. rewrite tset_eq. congruence.
      * rewrite nth_error_app1 in Hi' by lia. rewrite tset_neq by lia. now apply S2.
    + intros i Hi. rewrite tset_neq by lia. apply S5. lia.
Qed.
End F.
