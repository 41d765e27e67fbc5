From Coq Require Import List Bool ZArith Lia Permutation Sorting.Sorted.
From Verif Require Import ExtremeModel ExtremeSpec ExtremeProofs MemModel MemSpec.
Import ListNotations.
Open Scope Z_scope.

(* ---- sorted maps ---- *)
Section MapLemmas.
  Context {V : Type}.
  Definition klt (a b : Z * V) : Prop := fst a < fst b.
  Definition msorted (m : list (Z * V)) : Prop := StronglySorted klt m.

  Lemma mfind_in : forall k (m : list (Z * V)) v, mfind k m = Some v -> In (k, v) m.
  Proof.
    induction m as [|(a, w) r IH]; cbn; intros v H; [easy|].
    destruct (a =? k) eqn:E.
    - apply Z.eqb_eq in E. injection H as ->. subst. now left.
    - right. auto.
  Qed.

  Lemma mfind_none : forall k (m : list (Z * V)),
    mfind k m = None <-> ~ In k (map fst m).
  Proof.
    induction m as [|(a, w) r IH]; cbn; split; intros H; auto.
    - destruct (a =? k) eqn:E; [easy|]. apply Z.eqb_neq in E.
      intros [?|?]; [easy|]. now apply IH in H.
    - destruct (a =? k) eqn:E.
      + apply Z.eqb_eq in E. tauto.
      + apply IH. tauto.
  Qed.

  Lemma mfind_nodup : forall k (m : list (Z * V)) v,
    NoDup (map fst m) -> In (k, v) m -> mfind k m = Some v.
  Proof.
    induction m as [|(a, w) r IH]; cbn; intros v N H; [easy|].
    inversion N; subst. destruct H as [H|H].
    - injection H as -> ->. now rewrite Z.eqb_refl.
    - destruct (a =? k) eqn:E; [|auto]. apply Z.eqb_eq in E. subst.
      destruct H2. apply (in_map fst) in H. exact H.
  Qed.

  Lemma merase_perm : forall k (m : list (Z * V)) v,
    mfind k m = Some v -> Permutation m ((k, v) :: merase k m).
  Proof.
    induction m as [|(a, w) r IH]; cbn; intros v H; [easy|].
    destruct (a =? k) eqn:E.
    - apply Z.eqb_eq in E. injection H as ->. now subst.
    - rewrite perm_swap. apply perm_skip. auto.
  Qed.

  Lemma merase_in : forall k (m : list (Z * V)) x, In x (merase k m) -> In x m.
  Proof.
    induction m as [|(a, w) r IH]; cbn; intros x H; [easy|].
    destruct (a =? k); cbn in H; [now right|]. destruct H; [now left|right; auto].
  Qed.

  Lemma merase_sorted : forall k (m : list (Z * V)), msorted m -> msorted (merase k m).
  Proof.
    induction m as [|(a, w) r IH]; cbn; intros S; [easy|].
    inversion S; subst. destruct (a =? k); auto. constructor.
    - apply IH; auto.
    - apply Forall_forall. intros x Hx. apply merase_in in Hx.
      rewrite Forall_forall in H2. auto.
  Qed.

  Lemma msorted_nodup : forall m : list (Z * V), msorted m -> NoDup (map fst m).
  Proof.
    induction m as [|(a, w) r IH]; cbn; intros S; constructor; inversion S; subst; auto.
    intros H. apply in_map_iff in H. destruct H as ((b & u) & E & Hin). cbn in E. subst.
    rewrite Forall_forall in H2. specialize (H2 _ Hin). unfold klt in H2. cbn in H2. lia.
  Qed.

  Lemma mset_in : forall k v (m : list (Z * V)) x,
    In x (mset k v m) -> x = (k, v) \/ In x m.
  Proof.
    induction m as [|(a, w) r IH]; cbn; intros x H.
    - destruct H as [<-|[]]; auto.
    - destruct (k <? a); cbn in H.
      + destruct H as [<-|H]; auto.
      + destruct (a =? k); cbn in H; destruct H as [H|H]; auto.
        apply IH in H. destruct H; auto.
  Qed.

  Lemma mset_sorted : forall k v (m : list (Z * V)), msorted m -> msorted (mset k v m).
  Proof.
    induction m as [|(a, w) r IH]; cbn; intros S.
    - repeat constructor.
    - inversion S; subst. destruct (k <? a) eqn:L.
      + apply Z.ltb_lt in L. constructor; auto. constructor; [exact L|].
        rewrite Forall_forall in *. intros x Hx. specialize (H2 x Hx).
        unfold klt in *. cbn in *. lia.
      + apply Z.ltb_ge in L. destruct (a =? k) eqn:E.
        * apply Z.eqb_eq in E. subst. constructor; auto.
        * apply Z.eqb_neq in E. constructor; [apply IH; auto|].
          rewrite Forall_forall in *. intros x Hx. apply mset_in in Hx.
          destruct Hx as [->|Hx]; auto. unfold klt. cbn. lia.
  Qed.

  Lemma mset_perm : forall k v (m : list (Z * V)), msorted m ->
    Permutation (mset k v m) ((k, v) :: merase k m).
  Proof.
    induction m as [|(a, w) r IH]; cbn; intros S; [easy|].
    inversion S; subst. destruct (k <? a) eqn:L.
    - apply Z.ltb_lt in L. replace (a =? k) with false by (symmetry; apply Z.eqb_neq; lia).
      apply perm_skip, perm_skip. 
      replace (merase k r) with r; [easy|].
      clear - H2 L. induction r as [|(b, u) r IH]; cbn; auto.
      inversion H2; subst. unfold klt in H1. cbn in H1.
      replace (b =? k) with false by (symmetry; apply Z.eqb_neq; lia).
      f_equal. auto.
    - destruct (a =? k); [easy|]. rewrite IH by auto. apply perm_swap.
  Qed.

  Lemma merase_none : forall k (m : list (Z * V)), mfind k m = None -> merase k m = m.
  Proof.
    induction m as [|(a, w) r IH]; cbn; intros H; auto.
    destruct (a =? k); [easy|]. f_equal. auto.
  Qed.
End MapLemmas.

(* ---- blocks of the cache ---- *)
Definition cblocks (c : list (Z * list Z)) : list (Z * Z) :=
  flat_map (fun e => map (fun p => (p, fst e)) (snd e)) c.

Lemma cblocks_perm : forall c d, Permutation c d -> Permutation (cblocks c) (cblocks d).
Proof. intros c d H. unfold cblocks. now apply Permutation_flat_map. Qed.

Lemma cblocks_cons : forall s l c,
  cblocks ((s, l) :: c) = map (fun p => (p, s)) l ++ cblocks c.
Proof. reflexivity. Qed.

Lemma total_app : forall a b, total (a ++ b) = total a + total b.
Proof. induction a as [|x a IH]; cbn; intros; auto. fold (total (a ++ b)) (total a). rewrite IH. lia. Qed.

Lemma total_cons : forall x a, total (x :: a) = snd x + total a.
Proof. reflexivity. Qed.

Lemma total_perm : forall a b, Permutation a b -> total a = total b.
Proof. induction 1; rewrite ?total_cons in *; lia. Qed.

Lemma pop_last_perm : forall f l y l', pop_last f l = Some (y, l') ->
  f y = true /\ Permutation l (y :: l').
Proof.
  induction l as [|x r IH]; cbn; intros y l' H; [easy|].
  destruct (pop_last f r) as [(z & r')|] eqn:E.
  - injection H as <- <-. destruct (IH _ _ eq_refl) as [F P]. split; auto.
    rewrite P. apply perm_swap.
  - destruct (f x) eqn:F; [|easy]. injection H as <- <-. auto.
Qed.

Lemma pop_last_none : forall f l, pop_last f l = None -> forall y, In y l -> f y = false.
Proof.
  induction l as [|x r IH]; cbn; intros H y Hy; [easy|].
  destruct (pop_last f r) as [(z & r')|]; [easy|].
  destruct (f x) eqn:F; [easy|]. destruct Hy as [<-|Hy]; auto.
Qed.

Lemma pop_last_snoc : forall f l y, f y = true -> pop_last f (l ++ [y]) = Some (y, l).
Proof.
  induction l as [|x r IH]; cbn; intros y F; [now rewrite F|].
  now rewrite IH.
Qed.

(* ---- the invariant; [x] are blocks on their way between the tables ---- *)
Definition good (h : list (Z * Z)) : Prop :=
  NoDup (map fst h) /\
  (forall p n, In (p, n) h -> 0 < p /\ 0 < n) /\
  (forall p n q k, In (p, n) h -> In (q, k) h -> p <> q -> disjoint p n q k).

Record ginv (x : list (Z * Z)) (m : mm) : Prop := mkGinv {
  g_su : msorted (used m);
  g_sc : msorted (cached m);
  g_ne : forall s l, In (s, l) (cached m) -> l <> [];
  g_pm : Permutation (heap m) (x ++ used m ++ cblocks (cached m));
  g_gd : good (heap m);
  g_us : vval (usedSize m) = total (used m);
  g_cs : vval (cachedSize m) = total (cblocks (cached m));
  g_ue : vval (usedSize m) <= vextr (usedSize m);
  g_ce : vval (cachedSize m) <= vextr (cachedSize m)
}.

Definition good_perm : forall a b, Permutation a b -> good a -> good b.
Proof.
  intros a b P (N & Q & D). split; [|split].
  - eapply Permutation_NoDup; [|exact N]. now apply Permutation_map.
  - intros p n H. apply Q. eapply Permutation_in; [symmetry; exact P|exact H].
  - intros p n q k H1 H2. apply D; eapply Permutation_in; try (symmetry; exact P); auto.
Qed.

Lemma good_tail : forall x h, good (x :: h) -> good h.
Proof.
  intros x h (N & Q & D). inversion N; subst. split; [auto|split].
  - intros; apply Q. now right.
  - intros; apply D; auto; now right.
Qed.

Lemma vadd_spec : forall v x, 0 <= x -> vval v <= vextr v ->
  vval (vadd v x) = vval v + x /\ vextr (vadd v x) = Z.max (vextr v) (vval v + x).
Proof.
  intros v x Hx H. unfold vadd, vstep, updateExtreme. cbn [vval vextr].
  destruct (vextr v <? vval v + x) eqn:L; cbn [vval vextr];
    [apply Z.ltb_lt in L|apply Z.ltb_ge in L]; lia.
Qed.

Lemma vsub_spec : forall v x, 0 <= x -> vval v <= vextr v ->
  vval (vsub v x) = vval v - x /\ vextr (vsub v x) = vextr v.
Proof.
  intros v x Hx H. unfold vsub, vstep, updateExtreme. cbn [vval vextr].
  destruct (vextr v <? vval v - x) eqn:L; cbn [vval vextr];
    [apply Z.ltb_lt in L|apply Z.ltb_ge in L]; lia.
Qed.

Lemma init_inv : ginv [] mm_init.
Proof.
  split; cbn; try constructor; try easy; repeat split; try constructor; easy.
Qed.

Lemma pushToUsed_inv : forall p s x m,
  ginv ((p, s) :: x) m -> ginv x (pushToUsed p s m) /\
  Permutation (used (pushToUsed p s m)) ((p, s) :: used m) /\
  vextr (usedSize (pushToUsed p s m)) =
    Z.max (vextr (usedSize m)) (total (used (pushToUsed p s m))).
Proof.
  intros p s x m [SU SC NE PM GD US CS UE CE].
  assert (HIN : In (p, s) (heap m)).
  { eapply Permutation_in; [symmetry; exact PM|]. now left. }
  assert (HP : 0 < s) by (apply (proj1 (proj2 GD)) in HIN; lia).
  assert (HN : mfind p (used m) = None).
  { apply mfind_none. pose proof (good_perm _ _ PM GD) as (N & _).
    cbn in N. inversion N; subst. intros H. apply H1.
    rewrite !map_app, !in_app_iff. auto. }
  assert (PU : Permutation (mset p s (used m)) ((p, s) :: used m)).
  { rewrite mset_perm by auto. now rewrite merase_none. }
  destruct (vadd_spec (usedSize m) s) as [V1 V2]; [lia|auto|].
  split; [|split; [exact PU|]].
  - split; cbn [used cached heap usedSize cachedSize pushToUsed]; auto.
    + now apply mset_sorted.
    + rewrite PM. rewrite PU. cbn [app]. now rewrite <- Permutation_middle.
    + rewrite V1, US, (total_perm _ _ PU), total_cons. cbn. lia.
    + lia.
  - cbn [used usedSize pushToUsed]. rewrite V2, (total_perm _ _ PU), total_cons, US. cbn [snd].
    f_equal. lia.
Qed.

Lemma popFromUsed_inv : forall p x m, ginv x m ->
  match popFromUsed p m with
  | Ok (s, m') => ginv ((p, s) :: x) m' /\ Permutation (used m) ((p, s) :: used m') /\
                  heap m' = heap m /\ cached m' = cached m /\ useCache m' = useCache m /\
                  usedSize m' = vsub (usedSize m) s /\ vextr (usedSize m') = vextr (usedSize m)
  | Crash => ~ In p (map fst (used m))
  | Undef => False
  end.
Proof.
  intros p x m [SU SC NE PM GD US CS UE CE]. unfold popFromUsed.
  destruct (mfind p (used m)) as [s|] eqn:F.
  - pose proof (merase_perm _ _ _ F) as PU.
    assert (HP : 0 < s).
    { apply mfind_in in F. apply (proj1 (proj2 GD) p). eapply Permutation_in; [symmetry; exact PM|].
      rewrite !in_app_iff. auto. }
    destruct (vsub_spec (usedSize m) s) as [V1 V2]; [lia|auto|].
    split; [|cbn [used cached heap usedSize useCache]; repeat split; auto].
    split; cbn [used cached heap usedSize cachedSize]; auto.
    + now apply merase_sorted.
    + rewrite PM. rewrite PU at 1. cbn [app]. now rewrite <- Permutation_middle.
    + rewrite V1, US, (total_perm _ _ PU), total_cons. cbn. lia.
    + lia.
  - now apply mfind_none.
Qed.

Lemma map_fst_pair : forall s l, total (map (fun p : Z => (p, s)) l) = s * Z.of_nat (List.length l).
Proof. induction l; cbn [map]; rewrite ?total_cons; cbn [snd length]; [cbn; lia|]. lia. Qed.

Lemma pushToCache_inv : forall p s x m,
  ginv ((p, s) :: x) m -> ginv x (pushToCache p s m) /\
  used (pushToCache p s m) = used m /\ usedSize (pushToCache p s m) = usedSize m /\
  heap (pushToCache p s m) = heap m /\
  Permutation (cblocks (cached (pushToCache p s m))) ((p, s) :: cblocks (cached m)).
Proof.
  intros p s x m [SU SC NE PM GD US CS UE CE].
  assert (HP : 0 < s).
  { apply (proj1 (proj2 GD) p). eapply Permutation_in; [symmetry; exact PM|]. now left. }
  set (l := match mfind s (cached m) with Some l => l | None => [] end).
  assert (PC : Permutation (cblocks (mset s (l ++ [p]) (cached m))) ((p, s) :: cblocks (cached m))).
  { rewrite (cblocks_perm _ _ (mset_perm s _ _ SC)), cblocks_cons, map_app.
    unfold l. destruct (mfind s (cached m)) as [l0|] eqn:F.
    - pose proof (cblocks_perm _ _ (merase_perm _ _ _ F)) as Q. rewrite cblocks_cons in Q.
      rewrite Q. cbn [map]. rewrite <- app_assoc. cbn [app]. now rewrite <- Permutation_middle.
    - cbn. now rewrite merase_none. }
  destruct (vadd_spec (cachedSize m) s) as [V1 V2]; [lia|auto|].
  unfold pushToCache. fold l. cbn [used usedSize heap cached].
  split; [|repeat split; auto].
  split; cbn [used cached heap usedSize cachedSize]; auto.
  - now apply mset_sorted.
  - intros s' l' H. apply mset_in in H. destruct H as [H|H]; [|eauto].
    injection H as -> ->. now destruct l.
  - rewrite PM, PC. cbn [app]. now rewrite <- !Permutation_middle.
  - rewrite V1, CS, (total_perm _ _ PC), total_cons. cbn. lia.
  - lia.
Qed.

Lemma popFromCache_inv : forall s al x m, ginv x m ->
  let (p, m') := popFromCache s al m in
  used m' = used m /\ usedSize m' = usedSize m /\ heap m' = heap m /\
  useCache m' = useCache m /\ nAlloc m' = nAlloc m /\
  ((p = 0 /\ m' = m /\ forall q, In (q, s) (cblocks (cached m)) -> isAligned q al = false) \/
   (0 < p /\ p mod al = 0 /\ ginv ((p, s) :: x) m' /\
    Permutation (cblocks (cached m)) ((p, s) :: cblocks (cached m')))).
Proof.
  intros s al x m I. pose proof I as [SU SC NE PM GD US CS UE CE]. unfold popFromCache.
  assert (PP : forall q, In (q, s) (cblocks (cached m)) -> 0 < q /\ 0 < s).
  { intros q Hq. apply (proj1 (proj2 GD) q). eapply Permutation_in; [symmetry; exact PM|].
    rewrite !in_app_iff. auto. }
  destruct (mfind s (cached m)) as [l|] eqn:F.
  - pose proof (cblocks_perm _ _ (merase_perm _ _ _ F)) as Q. rewrite cblocks_cons in Q.
    destruct (pop_last (fun p => isAligned p al) l) as [(p & l')|] eqn:PL.
    + destruct (pop_last_perm _ _ _ _ PL) as [AL PL'].
      assert (PC : Permutation (cblocks (cached m))
                     ((p, s) :: cblocks (match l' with [] => merase s (cached m)
                                         | _ => mset s l' (cached m) end))).
      { rewrite Q. rewrite (Permutation_map (fun p => (p, s)) PL'). cbn [map app].
        apply perm_skip. destruct l' as [|y l'']; [easy|].
        rewrite (cblocks_perm _ _ (mset_perm s _ _ SC)), cblocks_cons. reflexivity. }
      assert (Hp : 0 < p /\ 0 < s).
      { apply PP. eapply Permutation_in; [symmetry; exact PC|]. now left. }
      destruct (vsub_spec (cachedSize m) s) as [V1 V2]; [lia|auto|].
      cbn [used usedSize heap useCache nAlloc cached]. repeat split; auto.
      right. split; [lia|]. split; [now apply Z.eqb_eq|]. split; [|exact PC].
      split; cbn [used cached heap usedSize cachedSize]; auto.
      * destruct l'; [now apply merase_sorted|now apply mset_sorted].
      * intros s' l0 H. destruct l' as [|y l''].
        -- apply merase_in in H. eauto.
        -- apply mset_in in H. destruct H as [H|H]; [|eauto]. now injection H as -> ->.
      * rewrite PM, PC. cbn [app]. rewrite app_assoc.
        rewrite <- Permutation_middle, <- app_assoc. reflexivity.
      * rewrite V1, CS, (total_perm _ _ PC), total_cons. cbn. lia.
      * lia.
    + repeat split; auto. left. repeat split; auto. intros q Hq.
      assert (Hl : In q l).
      { eapply Permutation_in in Hq; [|exact Q]. apply in_app_iff in Hq.
        destruct Hq as [Hq|Hq].
        - apply in_map_iff in Hq. destruct Hq as (y & E & Hy). now injection E as ->.
        - exfalso. unfold cblocks in Hq. apply in_flat_map in Hq.
          destruct Hq as ((s' & l') & Hin & Hy). cbn in Hy.
          apply in_map_iff in Hy. destruct Hy as (y & E & Hy). injection E as -> ->.
          pose proof (msorted_nodup _ SC) as N.
          eapply Permutation_NoDup in N; [|apply Permutation_map, (merase_perm _ _ _ F)].
          cbn in N. inversion N; subst. apply H1. apply (in_map fst) in Hin. exact Hin. }
      apply (pop_last_none _ _ PL q Hl).
  - repeat split; auto. left. repeat split; auto. intros q Hq. exfalso.
    apply mfind_none in F. apply F. unfold cblocks in Hq. apply in_flat_map in Hq.
    destruct Hq as ((s' & l') & Hin & Hy). cbn in Hy.
    apply in_map_iff in Hy. destruct Hy as (y & E & Hy). injection E as -> ->.
    apply (in_map fst) in Hin. exact Hin.
Qed.

Lemma allocateRaw_inv : forall s al ans x m, 0 < s -> ginv x m ->
  allocator_may_answer (heap m) s al ans ->
  match allocateRaw s ans m with
  | Ok (p, m') => 0 < p /\ p mod al = 0 /\ ginv ((p, s) :: x) m' /\ used m' = used m /\
                  usedSize m' = usedSize m /\ useCache m' = useCache m /\
                  cached m' = cached m
  | Crash => True
  | Undef => False
  end.
Proof.
  intros s al ans x m Hs [SU SC NE PM GD US CS UE CE] A.
  destruct ans as [p|]; cbn; auto. destruct A as (Hp & Ha & D).
  split; [auto|]. split; [auto|]. split; [|auto].
  split; cbn [used cached heap usedSize cachedSize]; auto.
  - cbn [app]. apply perm_skip. exact PM.
  - split; [|split].
    + cbn. constructor; [|apply GD]. intros H. apply in_map_iff in H.
      destruct H as ((q & k) & E & Hin). cbn in E. subst.
      destruct (proj1 (proj2 GD) _ _ Hin). specialize (D _ _ Hin). unfold disjoint in D. lia.
    + intros a n [E|Hin]; [injection E as <- <-; lia|apply (proj1 (proj2 GD) _ _ Hin)].
    + intros a n q k [E1|H1] [E2|H2] Hne.
      * injection E1 as <- <-. injection E2 as <- <-. easy.
      * injection E1 as <- <-. apply D. auto.
      * injection E2 as <- <-. specialize (D _ _ H1). unfold disjoint in *. lia.
      * now apply (proj2 (proj2 GD)).
Qed.

Lemma deAllocateRaw_inv : forall p s x m, ginv ((p, s) :: x) m ->
  exists m', deAllocateRaw p m = Ok m' /\ ginv x m' /\ used m' = used m /\
             usedSize m' = usedSize m /\ cached m' = cached m /\ useCache m' = useCache m.
Proof.
  intros p s x m [SU SC NE PM GD US CS UE CE]. unfold deAllocateRaw.
  assert (HIN : In (p, s) (heap m)).
  { eapply Permutation_in; [symmetry; exact PM|]. now left. }
  assert (Hp : 0 < p) by (now apply (proj1 (proj2 GD)) in HIN).
  replace (p =? 0) with false by (symmetry; apply Z.eqb_neq; lia).
  pose proof (mfind_nodup _ _ _ (proj1 GD) HIN) as F. rewrite F.
  eexists. split; [reflexivity|]. split; [|cbn; auto].
  split; cbn [used cached heap usedSize cachedSize]; auto.
  - apply (Permutation_cons_inv (a := (p, s))).
    rewrite <- (merase_perm _ _ _ F). rewrite PM. reflexivity.
  - apply (good_tail (p, s)). eapply good_perm; [|exact GD]. now apply merase_perm.
Qed.

(* ---- the calls ---- *)
Lemma to_int64_small : forall x, 0 <= x < 2 ^ 63 -> to_int64 x = x.
Proof. intros x H. unfold to_int64. rewrite Z.mod_small; lia. Qed.

Definition ext_of (m : mm) := vextr (usedSize m).

Lemma provide_inv : forall szT nel al ans m, ginv [] m ->
  0 < szT -> 0 <= nel -> szT * nel < 2 ^ 63 -> 0 < al ->
  allocator_may_answer (heap m) (szT * nel) al ans ->
  match provide szT nel al ans m with
  | Ok (p, m') =>
      ginv [] m' /\ useCache m' = useCache m /\
      (nel = 0 /\ p = 0 /\ m' = m \/
       0 < nel /\ 0 < p /\ p mod al = 0 /\
       Permutation (used m') ((p, szT * nel) :: used m) /\
       ext_of m' = Z.max (ext_of m) (total (used m')))
  | Crash => True
  | Undef => False
  end.
Proof.
  intros szT nel al ans m I Hs Hn Hm Ha A. unfold provide.
  destruct (nel =? 0) eqn:E; [apply Z.eqb_eq in E; auto 10|]. apply Z.eqb_neq in E.
  assert (S1 : 0 < szT * nel) by nia.
  cbv zeta. rewrite !to_int64_small by lia.
  pose proof (popFromCache_inv (szT * nel) al [] m I) as PC.
  destruct (popFromCache (szT * nel) al m) as (p & m1).
  destruct PC as (U & US & H & UC & NA & [(P0 & M1 & _)|(P0 & PA & I1 & PC)]).
  - subst p m1. rewrite Z.eqb_refl.
    pose proof (allocateRaw_inv (szT * nel) al ans [] m S1 I A) as AR.
    destruct (allocateRaw (szT * nel) ans m) as [(p & m2)| |]; cbn [rbind]; auto.
    destruct AR as (Pp & Pa & I2 & U2 & US2 & UC2 & C2).
    destruct (pushToUsed_inv _ _ _ _ I2) as (I3 & PU & EX).
    split; [exact I3|]. split; [exact UC2|]. right. repeat split; auto; try lia.
    + now rewrite <- U2.
    + unfold ext_of. now rewrite EX, US2.
  - replace (p =? 0) with false by (symmetry; apply Z.eqb_neq; lia). cbn [rbind].
    match goal with |- context [pushToUsed p _ ?mm] => set (m2 := mm) end.
    assert (I2 : ginv [(p, szT * nel)] m2) by (destruct I1; split; auto).
    destruct (pushToUsed_inv _ _ _ _ I2) as (I3 & PU & EX).
    split; [exact I3|]. split; [exact UC|]. right. repeat split; auto; try lia.
    + rewrite PU. cbn [m2 used]. now rewrite U.
    + unfold ext_of. rewrite EX. cbn [m2 usedSize]. now rewrite US.
Qed.

Lemma release_inv : forall p m, ginv [] m ->
  match release p m with
  | Ok m' =>
      ginv [] m' /\ useCache m' = useCache m /\ ext_of m' = ext_of m /\
      (p = 0 /\ m' = m \/
       exists s, p <> 0 /\ Permutation (used m) ((p, s) :: used m') /\
         (useCache m = true -> heap m' = heap m /\
            Permutation (cblocks (cached m')) ((p, s) :: cblocks (cached m))))
  | Crash => p <> 0 /\ ~ In p (map fst (used m))
  | Undef => False
  end.
Proof.
  intros p m I. unfold release.
  destruct (p =? 0) eqn:E; [apply Z.eqb_eq in E; auto 10|]. apply Z.eqb_neq in E.
  pose proof (popFromUsed_inv p [] m I) as PU. unfold moveToCache.
  destruct (popFromUsed p m) as [(s & m1)| |] eqn:PF; cbn [rbind].
  - destruct PU as (I1 & PU & HE & CE & UC & US & EX).
    destruct (useCache m) eqn:UCm.
    + destruct (pushToCache_inv _ _ _ _ I1) as (I2 & U2 & US2 & H2 & P2).
      split; [exact I2|]. split; [exact UC|]. split.
      { unfold ext_of. now rewrite US2. }
      right. exists s. rewrite U2. split; [auto|]. split; [auto|].
      intros _. split; [congruence|]. now rewrite P2, CE.
    + destruct (deAllocateRaw_inv _ _ _ _ I1) as (m' & D & I2 & U2 & US2 & C2 & UC2).
      rewrite D. split; [exact I2|]. split; [congruence|]. split.
      { unfold ext_of. now rewrite US2. }
      right. exists s. rewrite U2. split; [auto|]. split; [auto|]. easy.
  - destruct (useCache m); auto.
  - easy.
Qed.

Lemma release_list_inv : forall l m, ginv [] m ->
  NoDup l -> (forall p, In p l -> In p (map fst (used m))) ->
  exists m', release_list l m = Ok m' /\ ginv [] m' /\ useCache m' = useCache m /\
    ext_of m' = ext_of m /\ (forall p, In p (map fst (used m')) <-> In p (map fst (used m)) /\ ~ In p l).
Proof.
  induction l as [|p l IH]; intros m I N H; cbn [release_list].
  - exists m. split; [auto|]. split; [auto|]. split; [auto|]. split; [auto|].
    intros p. cbn. tauto.
  - pose proof (release_inv p m I) as R. inversion N as [|? ? N1 N2]; subst.
    assert (Hp : In p (map fst (used m))) by (apply H; now left).
    assert (Hp0 : p <> 0).
    { intros ->. apply in_map_iff in Hp. destruct Hp as ((q & k) & E & Hin). cbn in E. subst.
      assert (0 < 0); [|lia]. apply (proj1 (proj2 (g_gd _ _ I)) 0 k).
      eapply Permutation_in; [symmetry; apply (g_pm _ _ I)|]. rewrite !in_app_iff. auto. }
    destruct (release p m) as [m1| |]; cbn [rbind]; try tauto.
    destruct R as (I1 & UC & EX & [(? & _)|(s & _ & PU & _)]); [easy|].
    assert (ND : NoDup (map fst (used m))) by (apply msorted_nodup, (g_su _ _ I)).
    assert (K : forall q, In q (map fst (used m1)) <-> In q (map fst (used m)) /\ q <> p).
    { pose proof (Permutation_map fst PU) as PM. cbn in PM.
      pose proof (Permutation_NoDup PM ND) as ND1. inversion ND1; subst.
      intros q. rewrite PM. cbn [In]. split; [|firstorder congruence].
      intros Hq. split; [auto|]. intros ->. easy. }
    destruct (IH m1 I1 N2) as (m' & R' & I' & UC' & EX' & K').
    { intros q Hq. apply K. split; [apply H; now right|]. intros ->. easy. }
    exists m'. split; [exact R'|]. split; [exact I'|]. split; [congruence|]. split; [congruence|].
    intros q. rewrite K', K. cbn [In]. firstorder congruence.
Qed.

Lemma releaseAll_inv : forall m, ginv [] m ->
  exists m', releaseAllUsedMemory m = Ok m' /\ ginv [] m' /\ useCache m' = useCache m /\
    ext_of m' = ext_of m /\ used m' = [].
Proof.
  intros m I. unfold releaseAllUsedMemory.
  destruct (release_list_inv (map fst (used m)) m I) as (m' & R & I' & UC & EX & K).
  - apply msorted_nodup, (g_su _ _ I).
  - auto.
  - exists m'. split; [auto|]. split; [auto|]. split; [auto|]. split; [auto|].
    destruct (used m') as [|(p & s) r]; auto.
    exfalso. destruct (K p) as [K1 _]. destruct K1 as [? ?]; [now left|]. easy.
Qed.

(* all the blocks of a size are aligned to the default alignment *)
Definition all_aligned (l : list (Z * Z)) : Prop :=
  forall p s, In (p, s) l -> p mod DEFAULT_ALIGNMENT = 0.

Lemma clear_size_inv : forall s n m, ginv [] m ->
  exists m', clear_size s n m = Ok m' /\ ginv [] m' /\ used m' = used m /\
    usedSize m' = usedSize m /\ useCache m' = useCache m /\
    (forall b, In b (heap m') -> In b (heap m)) /\
    (forall b, In b (cblocks (cached m')) -> In b (cblocks (cached m))) /\
    (all_aligned (cblocks (cached m)) ->
     List.length (filter (fun b => snd b =? s) (cblocks (cached m))) = n ->
     forall b, In b (cblocks (cached m')) <-> In b (cblocks (cached m)) /\ snd b <> s).
Proof.
  induction n as [|n IH]; intros m I; cbn [clear_size].
  - exists m. split; [auto|]. split; [auto|]. split; [auto|]. split; [auto|].
    split; [auto|]. split; [auto|]. split; [auto|].
    intros _ LN b. apply length_zero_iff_nil in LN. split; [|tauto].
    intros Hb. split; [auto|]. intros E.
    assert (In b (filter (fun b => snd b =? s) (cblocks (cached m)))) as HF.
    { apply filter_In. split; auto. now apply Z.eqb_eq. }
    now rewrite LN in HF.
  - pose proof (popFromCache_inv s DEFAULT_ALIGNMENT [] m I) as PC.
    destruct (popFromCache s DEFAULT_ALIGNMENT m) as (p & m1).
    destruct PC as (U & US & H & UC & NA & [(P0 & M1 & NO)|(P0 & PA & I1 & PC)]).
    + subst p m1. unfold deAllocateRaw at 1. rewrite Z.eqb_refl. cbn [rbind].
      destruct (IH m I) as (m' & C & I' & U' & US' & UC' & HS & CS & _).
      exists m'. split; [auto|]. split; [auto|]. split; [auto|]. split; [auto|].
      split; [auto|]. split; [auto|]. split; [auto|].
      intros AL LN. exfalso.
      destruct (filter (fun b => snd b =? s) (cblocks (cached m))) as [|(q & k) r] eqn:F; [easy|].
      assert (Hq : In (q, k) (filter (fun b => snd b =? s) (cblocks (cached m)))) by (rewrite F; now left).
      apply filter_In in Hq. destruct Hq as [Hq E]. apply Z.eqb_eq in E. cbn in E. subst k.
      specialize (NO q Hq). specialize (AL q s Hq). unfold isAligned in NO. rewrite AL in NO. easy.
    + destruct (deAllocateRaw_inv _ _ _ _ I1) as (m2 & D & I2 & U2 & US2 & C2 & UC2).
      rewrite D. cbn [rbind].
      destruct (IH m2 I2) as (m' & C & I' & U' & US' & UC' & HS & CS & FL).
      assert (H2 : forall b, In b (heap m2) -> In b (heap m)).
      { intros b Hb. rewrite <- H. revert D Hb. unfold deAllocateRaw.
        replace (p =? 0) with false by (symmetry; apply Z.eqb_neq; lia).
        destruct (mfind p (heap m1)); [|easy]. intros D Hb. injection D as <-.
        cbn in Hb. now apply merase_in in Hb. }
      exists m'. split; [auto|]. split; [auto|]. split; [congruence|]. split; [congruence|].
      split; [congruence|]. split; [auto|]. split.
      { intros b Hb. apply CS in Hb. rewrite C2 in Hb. rewrite PC. now right. }
      intros AL LN.
      assert (ND : NoDup (cblocks (cached m))).
      { eapply NoDup_map_inv with (f := fst). pose proof (good_perm _ _ (g_pm _ _ I) (g_gd _ _ I)) as (N & _).
        cbn in N. rewrite map_app in N. clear - N.
        induction (map fst (used m)) as [|x l IHl]; cbn in N; auto. inversion N; auto. }
      assert (ND' := Permutation_NoDup PC ND). inversion ND'; subst.
      intros b. rewrite FL, C2, PC; cbn [In].
      * split; [tauto|]. intros [[<-|Hb] Hn]; [now destruct Hn|auto].
      * rewrite C2. intros q k Hq. apply (AL q k). rewrite PC. now right.
      * rewrite C2. assert (LP : List.length (filter (fun b => snd b =? s) (cblocks (cached m))) =
          List.length (filter (fun b => snd b =? s) ((p, s) :: cblocks (cached m1)))).
        { apply Permutation_length. clear - PC. induction PC; cbn; auto.
          - destruct (snd x =? s); auto.
          - destruct (snd x =? s), (snd y =? s); auto. apply perm_swap.
          - now rewrite IHPC1. }
        rewrite LP in LN. cbn in LN. rewrite Z.eqb_refl in LN. cbn in LN. lia.
Qed.

Lemma filter_cblocks_none : forall s c, ~ In s (map fst c) ->
  filter (fun b => snd b =? s) (cblocks c) = [].
Proof.
  induction c as [|(s' & l) c IH]; cbn [map fst In]; intros H; auto.
  rewrite cblocks_cons, filter_app, IH by tauto. rewrite app_nil_r.
  assert ((s' =? s) = false) by (apply Z.eqb_neq; tauto).
  clear - H0. induction l; cbn; auto. now rewrite H0.
Qed.

Lemma filter_cblocks : forall s l c, NoDup (map fst c) -> In (s, l) c ->
  List.length (filter (fun b => snd b =? s) (cblocks c)) = List.length l.
Proof.
  induction c as [|(s' & l') c IH]; intros N H; [easy|].
  cbn in N. inversion N; subst. rewrite cblocks_cons, filter_app, app_length.
  destruct H as [H|H].
  - injection H as -> ->. rewrite filter_cblocks_none by auto. cbn.
    rewrite Nat.add_0_r. clear. induction l; cbn; auto. rewrite Z.eqb_refl. cbn. now rewrite IHl.
  - rewrite IH by auto. replace (s' =? s) with false.
    2:{ symmetry. apply Z.eqb_neq. intros ->. apply H2. apply (in_map fst) in H. exact H. }
    assert (E : filter (fun b : Z * Z => snd b =? s) (map (fun p => (p, s')) l') = []).
    { assert ((s' =? s) = false).
      { apply Z.eqb_neq. intros ->. apply H2. apply (in_map fst) in H. exact H. }
      clear - H0. induction l'; cbn; auto. now rewrite H0. }
    now rewrite E.
Qed.
