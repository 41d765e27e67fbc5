From Verif Require Import Base ParModel ParSpec ParProofs ReduceModel ReduceSpec ReduceProofs.
From Coq Require Import Permutation.

Section P.
Context {V : Type}.
Implicit Types (m : mem V) (op : V -> V -> V).

Lemma locReduce_main bk op ix ndeg n nslices m o :
  associative op -> commutative op -> 0 < nslices ->
  distinct_addresses ix n ndeg -> (forall k, 0 <= k <= n -> fits (bk k) 0 k) ->
  locReduce bk op ix ndeg n nslices m o ->
  match o with
  | Crashed => ~ (nslices | n)
  | UndefinedB => n <= 0
  | Result res => (nslices | n) /\ 0 < n /\
     forall s d, 0 <= s < nslices -> 0 <= d < ndeg ->
       total op (map (fun i => m (ix (i + n / nslices * s) d)) (seqZ (n / nslices))) = Some (res s d)
  end.
Proof.
  intros HA HC Hns Hix Hbk H. destruct H as [H|H1 H2|H1 H2 H3|m' H1 H2 H3 HL]; try lia.
  - intros Hd. apply H2. apply Z.rem_divide; auto.
  - assert (Hdv : (nslices | n)) by (apply Z.rem_divide; auto). split; [auto|]. split; [auto|].
    destruct Hdv as [q Hq].
    assert (Hq0 : 0 < q) by nia.
    assert (Eq : n / nslices = q) by (rewrite Hq; apply Z.div_mul; lia).
    rewrite Z.quot_div_nonneg in * by lia. rewrite Eq in *.
    intros s d Hs Hd.
    apply (loop_total op ix ndeg nslices q) with (bk := bk); auto; try lia.
    + replace (nslices * q) with n by lia. auto.
    + intros k Hk. apply Hbk. split; [lia|].
      assert (q / 2 <= q) by (apply Z.div_le_upper_bound; lia). nia.
Qed.

Lemma locReduce_det bk bk' op ix ndeg n nslices m o o' :
  0 < nslices -> distinct_addresses ix n ndeg ->
  (forall k, 0 <= k <= n -> fits (bk k) 0 k) -> (forall k, 0 <= k <= n -> fits (bk' k) 0 k) ->
  locReduce bk op ix ndeg n nslices m o -> locReduce bk' op ix ndeg n nslices m o' ->
  match o, o' with
  | Crashed, Crashed | UndefinedB, UndefinedB => True
  | Result r, Result r' => forall s d, r s d = r' s d
  | _, _ => False
  end.
Proof.
  intros Hns Hix Hbk Hbk' H H'.
  destruct H as [H|H1 H2|H1 H2 H3|m1 H1 H2 H3 HL]; destruct H' as [G|G1 G2|G1 G2 G3|m2 G1 G2 G3 GL]; auto; try lia.
  intros s d.
  assert (Hdv : (nslices | n)) by (apply Z.rem_divide; auto). destruct Hdv as [q Hq].
  assert (Hq0 : 0 < q) by nia.
  assert (Eq : n / nslices = q) by (rewrite Hq; apply Z.div_mul; lia).
  rewrite Z.quot_div_nonneg in * by lia. rewrite Eq in *.
  assert (Hh : forall k, 0 <= k <= q / 2 * nslices -> 0 <= k <= n).
  { intros k Hk. assert (q / 2 <= q) by (apply Z.div_le_upper_bound; lia). nia. }
  apply (loop_det op ix ndeg nslices q Hns Hq0) with (bk := bk) (bk' := bk') (nper := q) (m := m) (n := m); auto; try lia.
  replace (nslices * q) with n by lia. auto.
Qed.

Lemma locReduce_exists bk op ix ndeg n nslices m : exists o, locReduce bk op ix ndeg n nslices m o.
Proof.
  destruct (Z.eq_dec nslices 0) as [H|H]; [exists UndefinedB; constructor; auto|].
  destruct (Z.eq_dec (Z.rem n nslices) 0) as [H1|H1]; [|exists Crashed; constructor; auto].
  destruct (Z_le_gt_dec n 0) as [H2|H2]; [exists UndefinedB; apply lr_empty; auto|].
  destruct (loop_exists op ix ndeg nslices (Z.quot n nslices) bk (Z.quot n nslices) m) as [m' Hm'].
  eexists. eapply lr_ok; eauto. lia.
Qed.

(** global *)
Definition olist (o : option V) : list V := match o with None => [] | Some x => [x] end.

Lemma fold_total op zero l : associative op -> commutative op -> (forall x, op zero x = x) ->
  fold_right op zero l = match total op l with None => zero | Some v => v end.
Proof.
  intros HA HC H0. induction l as [|x l IH]; [reflexivity|]. cbn [fold_right total]. rewrite IH.
  destruct (total op l); auto. rewrite HC. auto.
Qed.

Lemma glb_main bk op zero ix ndeg nslices ranks glb :
  associative op -> commutative op -> (forall x, op zero x = x) ->
  Forall (fun c => 0 < nloc_slices c /\ distinct_addresses ix (nloc c) ndeg /\
                   forall k, 0 <= k <= nloc c -> fits (bk k) 0 k) ranks ->
  glb_reduce bk op op zero ix ndeg nslices ranks glb ->
  forall s d, 0 <= s < nslices -> 0 <= d < ndeg ->
    glb s d = fold_right op zero (flat_map (fun c => slice_elems ix c s d) ranks).
Proof.
  intros HA HC H0 Hr (ress & HF & Hall) s d Hs Hd.
  pose proof (red_total op HA HC _ _ (Hall s d Hs Hd)) as Ht.
  rewrite fold_total by auto.
  assert (G : forall l, match total op l with None => zero | Some v => v end = fold_right op zero l)
    by (intros; rewrite fold_total; auto).
  rewrite G.
  assert (E : fold_right op zero (map (fun cr => loc_res zero (nloc_slices (fst cr)) (loc_offset (fst cr)) (snd cr) s d)
                     (List.combine ranks ress)) = fold_right op zero (flat_map (fun c => slice_elems ix c s d) ranks)).
  { clear Ht Hall. induction HF as [|c res ranks ress HL HF IH]; [reflexivity|].
    inversion Hr as [|c' r' Hc Hrs]; subst. destruct Hc as (Hc1 & Hc2 & Hc3).
    cbn [List.combine map fold_right flat_map fst snd].
    rewrite IH by auto. rewrite fold_right_app.
    pose proof (locReduce_main _ _ _ _ _ _ _ _ HA HC Hc1 Hc2 Hc3 HL) as HM. cbv beta iota in HM.
    destruct HM as (Hdv & Hn & HM).
    unfold loc_res, slice_elems. destruct ((loc_offset c <=? s) && (s <? loc_offset c + nloc_slices c)) eqn:Eb.
    - specialize (HM (s - loc_offset c) d ltac:(lia) Hd).
      set (l := map _ (seqZ (nloc c / nloc_slices c))) in *.
      set (z := fold_right op zero (flat_map (fun c0 => slice_elems ix c0 s d) ranks)) in *.
      change (op (res (s - loc_offset c) d) z = fold_right op z l).
      assert (Q : forall l z, fold_right op z l = op (fold_right op zero l) z).
      { clear - HA HC H0. induction l as [|x l IH]; intros z; cbn [fold_right]; [auto|]. rewrite IH, HA. auto. }
      rewrite Q. rewrite (fold_total op zero l) by auto. rewrite HM. reflexivity.
    - cbn [fold_right]. apply H0. }
  rewrite <- E, <- G, Ht. reflexivity.
Qed.

Lemma field_reduce_main bk op ix ndeg n ranks out :
  associative op -> commutative op -> 0 < n -> distinct_addresses ix n ndeg ->
  (forall k, 0 <= k <= n -> fits (bk k) 0 k) ->
  field_reduce bk op ix ndeg n ranks out ->
  forall d, 0 <= d < ndeg ->
   total op (flat_map (fun m => map (fun i => m (ix i d)) (seqZ n)) ranks) = Some (out d).
Proof.
  intros HA HC Hn Hix Hbk (ms & HF & Hall) d Hd.
  rewrite <- (red_total op HA HC _ _ (Hall d Hd)).
  clear Hall. induction HF as [|m m' ranks ms HL HF IH]; [reflexivity|].
  cbn [flat_map map]. rewrite total_app by auto. rewrite IH, total_cons. f_equal.
  assert (HT : total op (map (fun i => m (ix (i + n * 0) d)) (seqZ n)) = Some (m' (ix (0 * n) d))).
  { apply (loop_total op ix ndeg 1 n ltac:(lia) Hn ltac:(rewrite Z.mul_1_l; auto) HA HC bk n m m' HL); auto; try lia.
    intros k Hk. apply Hbk. assert (n / 2 <= n) by (apply Z.div_le_upper_bound; lia). lia. }
  change (0 * n) with 0 in HT. rewrite <- HT. f_equal. apply map_ext. intros i. do 2 f_equal. lia.
Qed.
End P.
