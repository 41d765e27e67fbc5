From Coq Require Import List Bool ZArith Lia Permutation Sorting.Sorted.
From Verif Require Import ExtremeModel ExtremeSpec ExtremeProofs MemModel MemSpec MemProofs.
Import ListNotations.
Open Scope Z_scope.

Lemma cblocks_nodup : forall m, ginv [] m -> NoDup (cblocks (cached m)).
Proof.
  intros m I. eapply NoDup_map_inv with (f := fst).
  pose proof (good_perm _ _ (g_pm _ _ I) (g_gd _ _ I)) as (N & _).
  cbn in N. rewrite map_app in N. clear - N.
  induction (map fst (used m)) as [|x l IHl]; cbn in N; auto. inversion N; auto.
Qed.

Lemma clear_loop_inv : forall es m, ginv [] m ->
  exists m', clear_loop false es m = Ok m' /\ ginv [] m' /\ used m' = used m /\
    usedSize m' = usedSize m /\ useCache m' = useCache m /\
    (all_aligned (cblocks (cached m)) -> NoDup (map fst es) ->
     (forall s l, In (s, l) es ->
        List.length (filter (fun b => snd b =? s) (cblocks (cached m))) = List.length l) ->
     forall b, In b (cblocks (cached m')) <-> In b (cblocks (cached m)) /\ ~ In (snd b) (map fst es)).
Proof.
  induction es as [|(s & l) es IH]; intros m I; cbn [clear_loop].
  - exists m. split; [auto|]. split; [auto|]. split; [auto|]. split; [auto|]. split; [auto|].
    intros _ _ _ b. cbn. tauto.
  - cbn [andb].
    destruct (clear_size_inv s (List.length l) m I) as (m1 & C & I1 & U & US & UC & HS & CS & FL).
    rewrite C. cbn [rbind].
    destruct (IH m1 I1) as (m' & C' & I' & U' & US' & UC' & FL').
    exists m'. split; [auto|]. split; [auto|]. split; [congruence|]. split; [congruence|].
    split; [congruence|].
    intros AL ND LN b. cbn [map fst] in *. inversion ND; subst.
    assert (FLs := FL AL (LN s l (or_introl eq_refl))).
    rewrite FL', FLs; auto.
    + cbn [In]. intuition congruence.
    + intros p k H. apply (AL p k). now apply FLs in H.
    + intros s' l' Hin. rewrite <- (LN s' l' (or_intror Hin)).
      apply Permutation_length. apply NoDup_Permutation.
      * now apply NoDup_filter, cblocks_nodup.
      * now apply NoDup_filter, cblocks_nodup.
      * intros x. rewrite !filter_In, FLs, !Z.eqb_eq.
        assert (s' <> s); [|intuition congruence].
        intros ->. apply H1. apply (in_map fst) in Hin. exact Hin.
Qed.

Lemma clearCache_inv : forall m, ginv [] m ->
  exists m', clearCache false m = Ok m' /\ ginv [] m' /\ used m' = used m /\
    usedSize m' = usedSize m /\ useCache m' = useCache m /\
    (all_aligned (cblocks (cached m)) -> cached m' = []).
Proof.
  intros m I. unfold clearCache.
  destruct (clear_loop_inv (cached m) m I) as (m' & C & I' & U & US & UC & FL).
  exists m'. repeat (split; [assumption|]). intros AL.
  assert (ND : NoDup (map fst (cached m))) by apply msorted_nodup, (g_sc _ _ I).
  assert (E : forall b, ~ In b (cblocks (cached m'))).
  { intros b Hb. apply FL in Hb; auto.
    - destruct Hb as [Hb NI]. apply NI. unfold cblocks in Hb. apply in_flat_map in Hb.
      destruct Hb as ((s & l) & Hin & Hy). cbn in Hy. apply in_map_iff in Hy.
      destruct Hy as (y & <- & _). cbn. apply (in_map fst) in Hin. exact Hin.
    - intros s l Hin. now apply filter_cblocks. }
  destruct (cached m') as [|(s & l) c] eqn:CE; auto. exfalso.
  destruct l as [|y l].
  - apply (g_ne _ _ I' s []); auto. rewrite CE. now left.
  - apply (E (y, s)). cbn. now left.
Qed.

Lemma disableCache_inv : forall m, ginv [] m ->
  exists m', disableCache false m = Ok m' /\ ginv [] m' /\ used m' = used m /\
    usedSize m' = usedSize m /\ useCache m' = false /\
    (all_aligned (cblocks (cached m)) -> cached m' = []).
Proof.
  intros m I. unfold disableCache.
  match goal with |- context [clearCache false ?x] => set (m1 := x) end.
  assert (I1 : ginv [] m1) by (destruct I; split; auto).
  destruct (clearCache_inv m1 I1) as (m' & C & I' & U & US & UC & A).
  exists m'. repeat (split; [assumption|]). exact A.
Qed.

(* ---- histories ---- *)
Lemma remove_block_perm : forall p s h u v,
  NoDup (map fst u) -> Permutation u h -> Permutation u ((p, s) :: v) ->
  Permutation v (remove_block p h).
Proof.
  intros p s h u v N P1 P2.
  assert (F : forall a b, Permutation a b -> Permutation (remove_block p a) (remove_block p b)).
  { clear. unfold remove_block. induction 1; cbn; auto.
    - destruct (negb (fst x =? p)); auto.
    - destruct (negb (fst x =? p)), (negb (fst y =? p)); auto. apply perm_swap.
    - now rewrite IHPermutation1. }
  rewrite <- (F _ _ P1), (F _ _ P2). unfold remove_block. cbn.
  rewrite Z.eqb_refl. cbn.
  assert (NV : ~ In p (map fst v)).
  { pose proof (Permutation_NoDup (Permutation_map fst P2) N) as N'.
    cbn in N'. now inversion N'. }
  clear - NV. induction v as [|(q & k) v IH]; cbn; auto.
  destruct (q =? p) eqn:E; cbn in *.
  - apply Z.eqb_eq in E. tauto.
  - apply perm_skip. apply IH. tauto.
Qed.

Lemma total_nonneg : forall h, (forall p n, In (p, n) h -> 0 < p /\ 0 < n) -> 0 <= total h.
Proof.
  induction h as [|(p & n) h IH]; intros H; [cbn; lia|].
  rewrite total_cons. cbn [snd].
  assert (0 < n) by (apply (H p n); now left).
  assert (0 <= total h) by (apply IH; intros q k Hq; apply (H q k); now right). lia.
Qed.

Lemma used_pos : forall m, ginv [] m -> forall p n, In (p, n) (used m) -> 0 < p /\ 0 < n.
Proof.
  intros m I p n H. apply (proj1 (proj2 (g_gd _ _ I))).
  eapply Permutation_in; [symmetry; apply (g_pm _ _ I)|]. rewrite !in_app_iff. auto.
Qed.

Lemma hist_inv : forall os h peak m, hist os h peak m ->
  ginv [] m /\ Permutation (used m) h /\ ext_of m = peak /\ total h <= peak.
Proof.
  induction 1 as [|os h peak m o p m' H IH SN AL EX].
  - split; [apply init_inv|]. cbn. repeat split; auto. lia.
  - destruct IH as (I & P & E & T).
    assert (ND : NoDup (map fst (used m))) by apply msorted_nodup, (g_su _ _ I).
    destruct o; cbn [mexec in_hand_step] in *.
    + destruct SN as (S1 & S2 & S3 & S4).
      pose proof (provide_inv szT nel alignment ans m I S1 S2 S3 S4 AL) as R.
      rewrite EX in R. destruct R as (I' & UC & [(N & P0 & M)|(N & P0 & PA & PU & EXT)]).
      * subst. rewrite Z.eqb_refl. split; [auto|]; split; [auto|]; split; lia.
      * replace (nel =? 0) with false by (symmetry; apply Z.eqb_neq; lia).
        assert (PU' : Permutation (used m') ((p, szT * nel) :: h)) by (rewrite PU; now apply perm_skip).
        split; [auto|]. split; [auto|]. rewrite EXT, E, (total_perm _ _ PU'). split; [auto|lia].
    + pose proof (release_inv ptr m I) as R.
      destruct (release ptr m) as [m1| |]; cbn [rbind] in EX; try easy.
      injection EX as <- <-. destruct R as (I' & UC & EXT & [(P0 & M)|(s & P0 & PU & _)]).
      * subst. assert (RM : remove_block 0 h = h).
        { unfold remove_block. 
          assert (Q : forall a b, In (a, b) h -> a <> 0).
          { intros a b Hab. eapply Permutation_in in Hab; [|symmetry; exact P].
            destruct (used_pos _ I _ _ Hab). lia. }
          clear - Q. induction h as [|(a & b) h IH]; cbn; auto.
          assert (a <> 0) by (apply (Q a b); now left).
          replace (a =? 0) with false by (symmetry; now apply Z.eqb_neq). cbn.
          f_equal. apply IH. intros; apply (Q a0 b0); now right. }
        rewrite RM. split; [auto|]; split; [auto|]; split; lia.
      * pose proof (remove_block_perm _ _ _ _ _ ND P PU) as PR.
        split; [auto|]. split; [auto|].
        rewrite EXT, E. rewrite <- (total_perm _ _ PR).
        rewrite <- (total_perm _ _ P), (total_perm _ _ PU), total_cons in T. cbn [snd] in T.
        assert (0 < s). { apply (used_pos _ I ptr). rewrite PU. now left. }
        split; lia.
    + destruct (releaseAll_inv m I) as (m1 & R & I' & UC & EXT & U).
      rewrite R in EX. cbn in EX. injection EX as <- <-. rewrite U.
      assert (0 <= total h).
      { rewrite <- (total_perm _ _ P). apply total_nonneg, used_pos; auto. }
      split; [auto|]. split; [auto|]. cbn. split; lia.
    + injection EX as <- <-. split; [destruct I; split; auto|]. cbn. split; [auto|].
      unfold ext_of in *. cbn. split; lia.
    + destruct (disableCache_inv m I) as (m1 & R & I' & U & US & UC & _).
      rewrite R in EX. cbn in EX. injection EX as <- <-. rewrite U.
      unfold ext_of in *. rewrite US. split; [auto|]; split; [auto|]; split; lia.
    + destruct (clearCache_inv m I) as (m1 & R & I' & U & US & UC & _).
      rewrite R in EX. cbn in EX. injection EX as <- <-. rewrite U.
      unfold ext_of in *. rewrite US. split; [auto|]; split; [auto|]; split; lia.
Qed.

(* every block obtained from the system has a multiple of the default alignment *)
Lemma hist_aligned : forall os h peak m, hist os h peak m ->
  (forall o, In o os -> default_aligned o) -> all_aligned (heap m).
Proof.
  induction 1 as [|os h peak m o p m' H IH SN AL EX]; intros DA.
  - intros p s [].
  - assert (A : all_aligned (heap m)) by (apply IH; intros; apply DA, in_app_iff; auto).
    assert (DO : default_aligned o) by (apply DA, in_app_iff; right; now left).
    pose proof (hist_inv _ _ _ _ H) as (I & _).
    destruct o; cbn [mexec] in EX.
    + revert EX. unfold provide. destruct (nel =? 0) eqn:E; [intros EX; injection EX as <- <-; auto|].
      destruct SN as (S1 & S2 & S3 & S4). apply Z.eqb_neq in E.
      cbv zeta. rewrite !to_int64_small by nia.
      pose proof (popFromCache_inv (szT * nel) alignment [] m I) as PC.
      destruct (popFromCache (szT * nel) alignment m) as (q & m1).
      destruct PC as (_ & _ & HE & _).
      destruct (q =? 0).
      * destruct ans as [a|]; cbn; [|easy]. intros EX. injection EX as <- <-. cbn.
        intros b k [Hb|Hb]; [|rewrite HE in Hb; eauto]. injection Hb as <- <-.
        cbn in DO, AL. destruct AL as (_ & AL & _).
        apply Z.mod_divide in AL; [|lia]. apply Z.mod_divide in DO; [|easy].
        apply Z.mod_divide; [easy|]. eapply Z.divide_trans; eauto.
      * cbn. intros EX. injection EX as <- <-. cbn. rewrite HE. auto.
    + revert EX. unfold release. destruct (ptr =? 0); [cbn; intros EX; injection EX as <- <-; auto|].
      unfold moveToCache, popFromUsed.
      destruct (mfind ptr (used m)); [|destruct (useCache m); easy].
      destruct (useCache m); cbn [rbind].
      * intros EX. injection EX as <- <-. auto.
      * unfold deAllocateRaw. destruct (ptr =? 0); [cbn; intros EX; injection EX as <- <-; auto|].
        cbn [heap]. destruct (mfind ptr (heap m)); cbn; [|easy].
        intros EX. injection EX as <- <-. cbn. intros b k Hb. apply merase_in in Hb. eauto.
    + assert (RL : forall l m0 m1, all_aligned (heap m0) -> release_list l m0 = Ok m1 -> all_aligned (heap m1)).
      { clear. induction l as [|q l IH]; cbn; intros m0 m1 A E; [injection E as <-; auto|].
        destruct (release q m0) as [m2| |] eqn:R; cbn in E; try easy.
        apply (IH m2); auto. clear E.
        revert R. unfold release. destruct (q =? 0); [intros EX; injection EX as <-; auto|].
        unfold moveToCache, popFromUsed.
        destruct (mfind q (used m0)); [|destruct (useCache m0); easy].
        destruct (useCache m0); cbn [rbind].
        * intros EX. injection EX as <-. auto.
        * unfold deAllocateRaw. destruct (q =? 0); [intros EX; injection EX as <-; auto|].
          cbn [heap]. destruct (mfind q (heap m0)); [|easy].
          intros EX. injection EX as <-. cbn. intros b k Hb. apply merase_in in Hb. eauto. }
      unfold releaseAllUsedMemory in EX.
      destruct (release_list _ m) as [m1| |] eqn:R; cbn in EX; try easy.
      injection EX as <- <-. eauto.
    + injection EX as <- <-. auto.
    + revert EX. unfold disableCache.
      match goal with |- context [clearCache false ?x] => set (m1 := x) end.
      assert (I1 : ginv [] m1) by (destruct I; split; auto).
      destruct (clearCache false m1) as [m2| |] eqn:C; cbn; try easy.
      intros EX. injection EX as <- <-.
      assert (all_aligned (heap m1)) by (cbn; auto). clearbody m1. clear - H0 C I1.
      unfold clearCache in C. revert C. generalize (cached m1) as es. revert m1 I1 H0 m2.
      intros m1 I1 A m2 es. revert m1 I1 A m2. induction es as [|(s & l) es IHe]; cbn [clear_loop andb]; intros m1 I1 A m2 C.
      * injection C as <-. auto.
      * destruct (clear_size_inv s (List.length l) m1 I1) as (m3 & C3 & I3 & _ & _ & _ & HS & _).
        rewrite C3 in C. cbn in C. apply (IHe m3); auto. intros b k Hb. eauto.
    + destruct (clearCache false m) as [m2| |] eqn:C; cbn in EX; try easy.
      injection EX as <- <-.
      clear - A C I. unfold clearCache in C. revert C. generalize (cached m) as es.
      intros es. revert m I A m2. induction es as [|(s & l) es IHe]; cbn [clear_loop andb]; intros m1 I1 A m2 C.
      * injection C as <-. auto.
      * destruct (clear_size_inv s (List.length l) m1 I1) as (m3 & C3 & I3 & _ & _ & _ & HS & _).
        rewrite C3 in C. cbn in C. apply (IHe m3); auto. intros b k Hb. eauto.
Qed.

(* ---- the statements ---- *)
Lemma provide_fresh : forall os h peak m szT nel al ans p m',
  hist os h peak m ->
  0 < szT -> 0 < nel -> szT * nel < 2 ^ 63 -> 0 < al ->
  allocator_may_answer (heap m) (szT * nel) al ans ->
  provide szT nel al ans m = Ok (p, m') ->
  0 < p /\ p mod al = 0 /\
  forall q k, In (q, k) h -> disjoint p (szT * nel) q k.
Proof.
  intros os h peak m szT nel al ans p m' H H1 H2 H3 H4 A E.
  pose proof (hist_inv _ _ _ _ H) as (I & P & _).
  assert (H2' : 0 <= nel) by lia.
  pose proof (provide_inv szT nel al ans m I H1 H2' H3 H4 A) as R. rewrite E in R.
  destruct R as (I' & UC & [(N & _)|(N & P0 & PA & PU & _)]); [lia|].
  split; [auto|]. split; [auto|]. intros q k Hq.
  assert (Hu : In (q, k) (used m)) by (eapply Permutation_in; [symmetry; exact P|auto]).
  assert (D := proj2 (proj2 (g_gd _ _ I'))). apply D.
  - eapply Permutation_in; [symmetry; apply (g_pm _ _ I')|]. cbn. apply in_app_iff. left.
    rewrite PU. now left.
  - eapply Permutation_in; [symmetry; apply (g_pm _ _ I')|]. cbn. apply in_app_iff. left.
    rewrite PU. now right.
  - intros ->. pose proof (msorted_nodup _ (g_su _ _ I')) as N'.
    apply (Permutation_NoDup (Permutation_map fst PU)) in N'. cbn in N'. inversion N'; subst.
    apply H6. apply (in_map fst) in Hu. exact Hu.
Qed.

Lemma accounting : forall os h peak m, hist os h peak m ->
  Permutation (used m) h /\
  vval (usedSize m) = total h /\ vextr (usedSize m) = peak /\
  vval (cachedSize m) = total (heap m) - total h.
Proof.
  intros os h peak m H. pose proof (hist_inv _ _ _ _ H) as (I & P & E & _).
  split; [auto|]. rewrite (g_us _ _ I), (g_cs _ _ I).
  rewrite (total_perm _ _ (g_pm _ _ I)). cbn. rewrite total_app, (total_perm _ _ P).
  repeat split; auto. lia.
Qed.

Lemma in_hand_disjoint : forall os h peak m, hist os h peak m ->
  NoDup (map fst h) /\
  (forall p n q k, In (p, n) h -> In (q, k) h -> p <> q -> disjoint p n q k) /\
  (forall p n, In (p, n) h -> In (p, n) (heap m)).
Proof.
  intros os h peak m H. pose proof (hist_inv _ _ _ _ H) as (I & P & E & _).
  assert (S : forall p n, In (p, n) h -> In (p, n) (heap m)).
  { intros p n Hp. eapply Permutation_in; [symmetry; apply (g_pm _ _ I)|]. cbn.
    apply in_app_iff. left. eapply Permutation_in; [symmetry; exact P|auto]. }
  split; [|split; auto].
  - eapply Permutation_NoDup; [apply Permutation_map, P|]. apply msorted_nodup, (g_su _ _ I).
  - intros; apply (proj2 (proj2 (g_gd _ _ I))); auto.
Qed.

Lemma never_undefined : forall os h peak m o, hist os h peak m -> sensible o ->
  (match o with
   | Provide szT nel al ans => allocator_may_answer (heap m) (szT * nel) al ans
   | _ => True end) ->
  mexec false o m <> Undef /\
  (mexec false o m = Crash ->
   match o with
   | Provide _ _ _ ans => ans = None
   | Release p => p <> 0 /\ ~ In p (map fst h)
   | _ => False
   end).
Proof.
  intros os h peak m o H SN A. pose proof (hist_inv _ _ _ _ H) as (I & P & _).
  destruct o; cbn [mexec].
  - destruct SN as (S1 & S2 & S3 & S4).
    pose proof (provide_inv szT nel alignment ans m I S1 S2 S3 S4 A) as R.
    split; [now destruct (provide szT nel alignment ans m) as [(?&?)| |]|].
    unfold provide. destruct (nel =? 0); [easy|].
    destruct (popFromCache _ _ m) as (q & m1). destruct (q =? 0); [|easy].
    destruct ans; [easy|auto].
  - pose proof (release_inv ptr m I) as R.
    destruct (release ptr m); cbn; split; try easy.
    intros _. destruct R as [R1 R2]. split; [auto|]. intros Hin. apply R2.
    eapply Permutation_in; [|exact Hin]. symmetry. now apply Permutation_map.
  - destruct (releaseAll_inv m I) as (m1 & -> & _). now split.
  - now split.
  - destruct (disableCache_inv m I) as (m1 & -> & _). now split.
  - destruct (clearCache_inv m I) as (m1 & -> & _). now split.
Qed.

Lemma release_unknown : forall os h peak m p, hist os h peak m ->
  p <> 0 -> ~ In p (map fst h) -> release p m = Crash.
Proof.
  intros os h peak m p H P0 NI. pose proof (hist_inv _ _ _ _ H) as (I & P & _).
  unfold release. replace (p =? 0) with false by (symmetry; now apply Z.eqb_neq).
  unfold moveToCache, popFromUsed.
  replace (mfind p (used m)) with (@None Z); [destruct (useCache m); reflexivity|].
  symmetry. apply mfind_none. intros Hin. apply NI.
  eapply Permutation_in; [|exact Hin]. now apply Permutation_map.
Qed.

Lemma mfind_mset : forall (V : Type) k (v : V) m, mfind k (mset k v m) = Some v.
Proof.
  induction m as [|(a & w) r IH]; cbn; [now rewrite Z.eqb_refl|].
  destruct (k <? a); cbn; [now rewrite Z.eqb_refl|].
  destruct (a =? k) eqn:E; cbn; [now rewrite Z.eqb_refl|]. now rewrite E.
Qed.

(* a released block is given again to the next fitting request, with no new allocation *)
Lemma reuse : forall os h peak m p n szT nel al ans m1, hist os h peak m ->
  useCache m = true -> In (p, n) h -> release p m = Ok m1 ->
  n = szT * nel -> 0 < szT -> 0 < nel -> n < 2 ^ 63 -> 0 < al -> p mod al = 0 ->
  exists m2, provide szT nel al ans m1 = Ok (p, m2) /\ nAlloc m2 = nAlloc m1 /\
             heap m2 = heap m.
Proof.
  intros os h peak m p n szT nel al ans m1 H UC Hin R En Hs Hn Hb Ha Hal.
  pose proof (hist_inv _ _ _ _ H) as (I & P & _).
  assert (Hu : In (p, n) (used m)) by (eapply Permutation_in; [symmetry; exact P|auto]).
  destruct (used_pos _ I _ _ Hu) as [Pp Pn].
  revert R. unfold release. replace (p =? 0) with false by (symmetry; apply Z.eqb_neq; lia).
  rewrite UC. unfold moveToCache, popFromUsed.
  rewrite (mfind_nodup p (used m) n) by (auto; apply msorted_nodup, (g_su _ _ I)).
  cbn [rbind]. intros R. injection R as <-.
  unfold provide. replace (nel =? 0) with false by (symmetry; apply Z.eqb_neq; lia).
  cbv zeta. rewrite to_int64_small by lia. rewrite <- En.
  unfold popFromCache, pushToCache. cbn [cached]. rewrite mfind_mset.
  rewrite pop_last_snoc by (unfold isAligned; now apply Z.eqb_eq).
  replace (p =? 0) with false by (symmetry; apply Z.eqb_neq; lia).
  cbn [rbind]. eexists. split; [reflexivity|]. split; reflexivity.
Qed.

Lemma clear_exact : forall os h peak m, hist os h peak m ->
  (forall o, In o os -> default_aligned o) ->
  exists m', clearCache false m = Ok m' /\ Permutation (heap m') h /\
             vval (cachedSize m') = 0.
Proof.
  intros os h peak m H DA. pose proof (hist_inv _ _ _ _ H) as (I & P & _).
  pose proof (hist_aligned _ _ _ _ H DA) as A.
  destruct (clearCache_inv m I) as (m' & C & I' & U & _ & _ & AC).
  exists m'. split; [auto|].
  assert (E : cached m' = []).
  { apply AC. intros p s Hp. apply (A p s). eapply Permutation_in; [symmetry; apply (g_pm _ _ I)|].
    cbn. apply in_app_iff. now right. }
  split.
  - rewrite (g_pm _ _ I'). rewrite E, U. cbn. now rewrite app_nil_r.
  - rewrite (g_cs _ _ I'), E. reflexivity.
Qed.

Lemma release_list_heap : forall l m0 m1, ginv [] m0 -> release_list l m0 = Ok m1 ->
  forall b, In b (heap m1) -> In b (heap m0).
Proof.
  induction l as [|q l IH]; cbn; intros m0 m1 I E b Hb; [injection E as <-; auto|].
  pose proof (release_inv q m0 I) as RI.
  destruct (release q m0) as [m2| |] eqn:R; cbn in E; try easy.
  destruct RI as (I2 & _). specialize (IH m2 m1 I2 E b Hb). clear E Hb.
  revert R. unfold release. destruct (q =? 0); [intros EX; injection EX as <-; auto|].
  unfold moveToCache, popFromUsed.
  destruct (mfind q (used m0)); [|destruct (useCache m0); easy].
  destruct (useCache m0); cbn [rbind].
  - intros EX. injection EX as <-. auto.
  - unfold deAllocateRaw. destruct (q =? 0); [intros EX; injection EX as <-; auto|].
    cbn [heap]. destruct (mfind q (heap m0)); [|easy].
    intros EX. injection EX as <-. cbn in IH. now apply merase_in in IH.
Qed.

Lemma destroy_exact : forall os h peak m, hist os h peak m ->
  (forall o, In o os -> default_aligned o) ->
  exists m', destroy false m = Ok m' /\ heap m' = [].
Proof.
  intros os h peak m H DA. pose proof (hist_inv _ _ _ _ H) as (I & P & _).
  pose proof (hist_aligned _ _ _ _ H DA) as A. unfold destroy.
  destruct (releaseAll_inv m I) as (m1 & R & I1 & UC1 & _ & U1). rewrite R. cbn [rbind].
  destruct (clearCache_inv m1 I1) as (m' & C & I' & U & _ & _ & AC).
  exists m'. split; [auto|].
  assert (E : cached m' = []).
  { apply AC. intros p s Hp. apply (A p s).
    apply (release_list_heap _ _ _ I R).
    eapply Permutation_in; [symmetry; apply (g_pm _ _ I1)|]. cbn. apply in_app_iff. now right. }
  pose proof (g_pm _ _ I') as PM. rewrite E, U, U1 in PM. cbn in PM.
  apply Permutation_sym, Permutation_nil in PM. exact PM.
Qed.

(* with verbosity 3 clearing a cache which is not empty is undefined *)
Lemma clear_loop_lv3 : forall es m, ginv [] m -> es <> [] ->
  (forall s l, In (s, l) es -> l <> []) -> clear_loop true es m = Undef.
Proof.
  induction es as [|(s & l) es IH]; intros m I NE NL; [easy|]. cbn [clear_loop andb].
  assert (Hl : l <> []) by (apply (NL s); now left).
  destruct es as [|e es].
  - destruct l; [easy|]. reflexivity.
  - cbn [andb]. destruct (clear_size_inv s (List.length l) m I) as (m1 & C & I1 & _).
    rewrite C. cbn [rbind]. apply IH; auto; [easy|]. intros s' l' H. apply (NL s'). now right.
Qed.

Lemma clear_lv3 : forall os h peak m, hist os h peak m ->
  vval (cachedSize m) <> 0 -> clearCache true m = Undef.
Proof.
  intros os h peak m H NE. pose proof (hist_inv _ _ _ _ H) as (I & _).
  unfold clearCache. apply clear_loop_lv3; auto.
  - intros E. apply NE. rewrite (g_cs _ _ I), E. reflexivity.
  - apply (g_ne _ _ I).
Qed.
