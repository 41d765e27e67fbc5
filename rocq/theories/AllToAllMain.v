(** All-to-all communicator: main theorems. *)
From Verif Require Import Base GeometryModel HaloModel HaloProofs AllToAllModel AllToAllProofs AllToAllExch.

Lemma read_cells_ok (t : table Z) L : NoDup L -> (forall i, In i L -> exists v, t i = Some v /\ 0 <= v) ->
  (forall i j v, In i L -> In j L -> t i = Some v -> t j = Some v -> i = j) ->
  exists l, read_cells t L = Some l /\ forallb (Z.leb 0) l = true /\ no_rep l = true /\ forall v, In v l -> exists i, In i L /\ t i = Some v.
Proof.
  induction 1 as [|i L Hi Hnd IH]; intros Hd Hinj.
  - exists []. repeat split. intros v [].
  - destruct IH as (l & E & H1 & H2 & H3).
    { intros j Hj. apply Hd. now right. }
    { intros a b v Ha Hb. apply Hinj; now right. }
    destruct (Hd i (or_introl eq_refl)) as (v & Ev & Hv). exists (v :: l). cbn [read_cells]. rewrite Ev, E.
    split; [reflexivity|]. split; [|split].
    + cbn [forallb]. rewrite H1. replace (0 <=? v) with true by lia. reflexivity.
    + cbn [no_rep]. rewrite H2. rewrite andb_true_r. apply negb_true_iff. apply not_true_iff_false. intros Hx.
      apply existsb_exists in Hx as (w & Hw & Ew). apply Z.eqb_eq in Ew. subst w. destruct (H3 v Hw) as (j & Hj & Ej).
      assert (i = j) by (eapply Hinj; [now left|now right|exact Ev|exact Ej]). subst j. contradiction.
    + intros w [<-|Hw]; [exists i; split; [now left|exact Ev]|]. destruct (H3 w Hw) as (j & Hj & Ej). exists j. split; [now right|exact Ej].
Qed.

Lemma put_fold {A} (d : table Z) (ib : table A) L : forall o,
  (forall i, In i L -> exists k, d i = Some k) ->
  exists o', fold_left (put_step d ib) L (Some o) = Some o' /\
    (forall k, (forall i, In i L -> d i <> Some k) -> o' k = o k) /\
    (forall i k, (In i L \/ o k = ib i) -> d i = Some k -> (forall j, In j L -> d j = Some k -> j = i) -> o' k = ib i).
Proof.
  induction L as [|i L IH]; intros o Hd.
  - exists o. split; [reflexivity|]. split; [auto|]. intros i k [[]|H]; auto.
  - cbn [fold_left put_step]. destruct (Hd i (or_introl eq_refl)) as (ki & Ek). rewrite Ek.
    destruct (IH (fun j => if j =? ki then ib i else o j)) as (o' & E & H1 & H2).
    { intros j Hj. apply Hd. now right. }
    exists o'. split; [exact E|]. split.
    + intros k Hk. rewrite H1 by (intros j Hj; apply Hk; now right). destruct (Z.eqb_spec k ki) as [->|]; [|reflexivity].
      exfalso. apply (Hk i); [now left|exact Ek].
    + intros j k Hj Ej Hu. apply (H2 j k); [|exact Ej|intros; apply Hu; [now right|assumption]].
      destruct (Z.eqb_spec k ki) as [->|Hn].
      * rewrite (Hu i (or_introl eq_refl) Ek). right. reflexivity.
      * destruct Hj as [[->|Hj]|Hj]; [congruence|left; exact Hj|right; exact Hj].
Qed.

Lemma pos_of_filter (P : Z -> bool) r : forall n s, 0 <= r - s -> (Z.to_nat (r - s) < n)%nat -> P r = true ->
  pos_of r (filter P (map Z.of_nat (seq (Z.to_nat s) n))) = Some (length (filter P (map Z.of_nat (seq (Z.to_nat s) (Z.to_nat (r - s)))))) \/ s < 0.
Proof.
  induction n as [|n IH]; intros s Hs Hn HP; [lia|]. destruct (Z_lt_le_dec s 0) as [|Hs0]; [now right|left].
  cbn [seq map filter]. rewrite Z2Nat.id by lia. destruct (Z.eq_dec s r) as [->|Hne].
  - rewrite HP. cbn [pos_of]. rewrite Z.eqb_refl, Z.sub_diag. reflexivity.
  - assert (E : Z.to_nat (r - s) = S (Z.to_nat (r - (s + 1)))) by lia. rewrite E. cbn [seq map filter]. rewrite Z2Nat.id by lia.
    replace (S (Z.to_nat s)) with (Z.to_nat (s + 1)) by lia.
    destruct (IH (s + 1) ltac:(lia) ltac:(lia) HP) as [IH'|]; [|lia].
    destruct (P s); cbn [pos_of length]; [|exact IH']. replace (s =? r) with false by lia. rewrite IH'. reflexivity.
Qed.

Lemma pos_ranks N t r : 0 <= r < N -> t r <> 0 -> pos_of r (ranks_of N t) = Some (length (ranks_of r t)).
Proof.
  intros Hr Ht. unfold ranks_of, seqZ. 
  assert (HP : (fun q => negb (t q =? 0)) r = true) by (destruct (Z.eqb_spec (t r) 0); [contradiction|reflexivity]).
  destruct (pos_of_filter (fun q => negb (t q =? 0)) r (Z.to_nat N) 0 ltac:(lia) ltac:(lia) HP) as [E|]; [|lia].
  rewrite Z.sub_0_r in E. exact E.
Qed.
Lemma pos_ranks_none N t r : t r = 0 -> pos_of r (ranks_of N t) = None.
Proof.
  intros Ht. destruct (pos_of r (ranks_of N t)) as [i|] eqn:E; [|reflexivity]. apply pos_of_nth in E. apply nth_error_In in E.
  apply ranks_in in E. tauto.
Qed.

Lemma map_ranks N t : map t (ranks_of N t) = filter (fun n => negb (n =? 0)) (map t (seqZ N)).
Proof. unfold ranks_of. induction (seqZ N) as [|x X IH]; [reflexivity|]. cbn [filter map]. destruct (negb _); cbn [map]; now rewrite IH. Qed.

Section Comm.
Context (N : Z) (HN : 0 < N).
(** S r q: elements going from rank r to rank q, as pairs of source and destination index, in the order of the buffers *)
Context (S : Z -> Z -> list (Z * Z)).
Context (cnt : Z -> Z -> Z) (Hcnt : forall r q, cnt r q = Z.of_nat (length (S r q))).

Definition comm_ok (r : Z) (c : comm) : Prop :=
  to c = mk N (cnt r) /\ fr c = mk N (fun q => cnt q r) /\
  (forall q k s d, 0 <= q < N -> nth_error (S r q) k = Some (s, d) -> out_buf_source c (off_to N cnt r q + Z.of_nat k) = Some s) /\
  (forall q k s d, 0 <= q < N -> nth_error (S q r) k = Some (s, d) -> in_buf_dest c (off_fr N cnt r q + Z.of_nat k) = Some d).

Hypothesis Hinj : forall r q1 q2 k1 k2 s1 s2 d, 0 <= r < N -> 0 <= q1 < N -> 0 <= q2 < N ->
  nth_error (S q1 r) k1 = Some (s1, d) -> nth_error (S q2 r) k2 = Some (s2, d) -> q1 = q2 /\ k1 = k2.
Lemma cnt_nonneg r q : 0 <= cnt r q. Proof. rewrite Hcnt. lia. Qed.

Lemma cell_fr r j : 0 <= j < nel (mk N (fun q => cnt q r)) ->
  exists q k s d, 0 <= q < N /\ nth_error (S q r) k = Some (s, d) /\ j = off_fr N cnt r q + Z.of_nat k.
Proof.
  intros Hj. cbn [mk nel] in Hj. rewrite (sum_to_tot (fun q => cnt q r)) in Hj.
  destruct (off_cover (fun q => cnt q r) (fun q => cnt_nonneg q r) (ranks_of N (fun q => cnt q r)) 0 j) as (q & Hq & Hr).
  { apply ranks_nodup. } { lia. }
  apply ranks_in in Hq as [Hq _]. fold (off_fr N cnt r q) in Hr.
  destruct (nth_error (S q r) (Z.to_nat (j - off_fr N cnt r q))) as [[s d]|] eqn:E.
  - exists q, (Z.to_nat (j - off_fr N cnt r q)), s, d. split; [exact Hq|]. split; [exact E|]. lia.
  - apply nth_error_None in E. pose proof (Hcnt q r). lia.
Qed.
Lemma cell_fr_lt r q k s d : 0 <= q < N -> nth_error (S q r) k = Some (s, d) -> 0 <= off_fr N cnt r q + Z.of_nat k < nel (mk N (fun q => cnt q r)).
Proof.
  intros Hq E. assert (Hl : (k < length (S q r))%nat) by (apply nth_error_Some; congruence).
  assert (Hin : In q (ranks_of N (fun q => cnt q r))) by (apply ranks_in; split; [exact Hq|rewrite Hcnt; lia]).
  pose proof (off_le (fun q => cnt q r) (fun q => cnt_nonneg q r) _ 0 q Hin) as H. cbv beta in H. fold (off_fr N cnt r q) in H.
  pose proof (off_ge (fun q => cnt q r) (fun q => cnt_nonneg q r) (ranks_of N (fun q => cnt q r)) 0 q) as H'. fold (off_fr N cnt r q) in H'.
  cbn [mk nel]. rewrite (sum_to_tot (fun q => cnt q r)). pose proof (Hcnt q r). lia.
Qed.
Lemma cell_to_lt r q k s d : 0 <= q < N -> nth_error (S r q) k = Some (s, d) -> 0 <= off_to N cnt r q + Z.of_nat k < nel (mk N (cnt r)).
Proof.
  intros Hq E. assert (Hl : (k < length (S r q))%nat) by (apply nth_error_Some; congruence).
  assert (Hin : In q (ranks_of N (cnt r))) by (apply ranks_in; split; [exact Hq|rewrite Hcnt; lia]).
  pose proof (off_le (cnt r) (cnt_nonneg r) _ 0 q Hin) as H. cbv beta in H. fold (off_to N cnt r q) in H.
  pose proof (off_ge (cnt r) (cnt_nonneg r) (ranks_of N (cnt r)) 0 q) as H'. fold (off_to N cnt r q) in H'.
  cbn [mk nel]. rewrite (sum_to_tot (cnt r)). pose proof (Hcnt r q). lia.
Qed.

Lemma dest_check_ok r (d : table Z) : 0 <= r < N ->
  (forall q k s x, 0 <= q < N -> nth_error (S q r) k = Some (s, x) -> d (off_fr N cnt r q + Z.of_nat k) = Some x /\ 0 <= x) ->
  dest_check (nel (mk N (fun q => cnt q r))) d = true.
Proof.
  intros Hr Hd. unfold dest_check.
  destruct (read_cells_ok d (seqZ (nel (mk N (fun q => cnt q r))))) as (l & E & H1 & H2 & _).
  - apply NoDup_seqZ.
  - intros i Hi. apply in_seqZ in Hi. destruct (cell_fr r i Hi) as (q & k & s & x & Hq & Ek & ->). destruct (Hd q k s x Hq Ek). eauto.
  - intros i j v Hi Hj Ei Ej. apply in_seqZ in Hi, Hj.
    destruct (cell_fr r i Hi) as (q & k & s & x & Hq & Ek & ->). destruct (cell_fr r j Hj) as (q' & k' & s' & x' & Hq' & Ek' & ->).
    destruct (Hd q k s x Hq Ek) as [D _]. destruct (Hd q' k' s' x' Hq' Ek') as [D' _].
    assert (x = v) by congruence. assert (x' = v) by congruence. subst x x'.
    destruct (Hinj r q q' k k' s s' v Hr Hq Hq' Ek Ek') as [-> ->]. reflexivity.
  - rewrite E, H1, H2. reflexivity.
Qed.

Hypothesis Hbal : forall r, 0 <= r < N -> sum_to N (cnt r) = sum_to N (fun q => cnt q r).
(** the number of elements read by the loop copying the local part *)
Hypothesis Hself : forall r, 0 <= r < N -> cnt r r <> 0 ->
  nth_error (map (cnt r) (ranks_of N (cnt r))) (length (ranks_of r (fun q => cnt q r))) = Some (cnt r r).

Theorem communicate_main {A} (c : Z -> option comm) (sched : Z -> list Z) (input : Z -> table A) (out : table A) :
  (forall n i, In i (sched n) <-> 0 <= i < n) ->
  (forall r, 0 <= r < N -> exists cr, c r = Some cr /\ comm_ok r cr) ->
  forall r, 0 <= r < N ->
  exists out', communicate c sched input out r = Some out' /\
    (forall q k s d, 0 <= q < N -> nth_error (S q r) k = Some (s, d) -> out' d = input q s) /\
    (forall d, (forall q k s, 0 <= q < N -> nth_error (S q r) k <> Some (s, d)) -> out' d = out d).
Proof.
  intros Hs Hc r Hr. destruct (Hc r Hr) as (cr & Ecr & Hok). unfold communicate. cbv zeta.
  pose proof Hok as (Eto & Efr & _ & Hdest).
  set (ob := out_buffer c input).
  rewrite Ecr.
  assert (Hob : forall q k s d, 0 <= q < N -> nth_error (S q r) k = Some (s, d) -> ob q (off_to N cnt q r + Z.of_nat k) = input q s).
  { intros q k s d Hq Ek. unfold ob, out_buffer. destruct (Hc q Hq) as (cq & Ecq & Hokq). rewrite Ecq. destruct Hokq as (Etoq & _ & Hsrc & _).
    pose proof (cell_to_lt q r k s d Hr Ek) as Hlt. rewrite Etoq. replace ((0 <=? _) && (_ <? _)) with true by lia.
    rewrite (Hsrc r k s d Hr Ek). reflexivity. }
  clearbody ob.
  destruct (exch N cnt cnt_nonneg (fun p q => negb (q =? p)) (fun p q => f_equal negb (Z.eqb_sym q p)) ob r Hr) as (ib & Eib & Hib).
  assert (Esend : forall ms, (forall m, In m ms -> 0 <= peer m < N) ->
     recv_all (fun q => match c q with Some cq => filter (not_this q) (side_msgs (to cq)) | None => [] end) ob r ms =
     recv_all (fun q => filter (fun m => negb (peer m =? q)) (side_msgs (mk N (cnt q)))) ob r ms).
  { intros ms. unfold recv_all. generalize (Some (@tempty A)). induction ms as [|m ms IH]; intros o Hms; [reflexivity|].
    cbn [fold_left]. rewrite IH by (intros; apply Hms; now right). f_equal. unfold recv_one.
    destruct (Hc (peer m) (Hms m (or_introl eq_refl))) as (cq & Ecq & Hokq). rewrite Ecq. destruct Hokq as (-> & _). reflexivity. }
  rewrite Efr. rewrite Esend.
  2:{ intros m Hm. apply filter_In in Hm as [Hm _]. unfold mk in Hm. rewrite (side_msgs_spec (fun q => cnt q r)) in Hm by apply ranks_nodup.
      apply in_map_iff in Hm as (p & <- & Hp). apply ranks_in in Hp. cbn [peer]. tauto. }
  unfold not_this. rewrite Eib. clear Esend.
  assert (Hlc : exists ib', local_copy cr r (ob r) ib = Some ib' /\
    forall q k, 0 <= q < N -> 0 <= k < cnt q r -> ib' (off_fr N cnt r q + k) = ob q (off_to N cnt q r + k)).
  { unfold local_copy. rewrite Eto, Efr. cbn [mk list_ranks nper_rank buf_off].
    destruct (Z.eq_dec (cnt r r) 0) as [E0|E0].
    - rewrite (pos_ranks_none N (fun q => cnt q r)) by exact E0. exists ib. split; [reflexivity|]. intros q k Hq Hk. apply Hib; auto.
      destruct (Z.eqb_spec q r) as [->|]; [lia|reflexivity].
    - rewrite (pos_ranks N (fun q => cnt q r) r Hr E0), (pos_ranks N (cnt r) r Hr E0).
      assert (N1 : nth (length (ranks_of r (cnt r))) (map (cnt r) (ranks_of N (cnt r))) 0 = cnt r r).
      { apply nth_error_nth. rewrite nth_error_map. rewrite (pos_of_nth r (ranks_of N (cnt r))) by (apply pos_ranks; assumption). reflexivity. }
      assert (N2 : nth (length (ranks_of r (fun q => cnt q r))) (map (fun q => cnt q r) (ranks_of N (fun q => cnt q r))) 0 = cnt r r).
      { apply nth_error_nth. rewrite nth_error_map. rewrite (pos_of_nth r (ranks_of N (fun q => cnt q r))) by (apply (pos_ranks N (fun q => cnt q r)); assumption). reflexivity. }
      rewrite N1, N2, Z.eqb_refl. cbn [negb]. rewrite (Hself r Hr E0). replace (cnt r r <? cnt r r) with false by lia.
      assert (O1 : nth (length (ranks_of r (cnt r))) (offsets 0 (map (cnt r) (ranks_of N (cnt r)))) 0 = off_to N cnt r r).
      { unfold off_to. rewrite <- nth_offsets by (apply ranks_in; split; assumption). unfold map_pos. rewrite (pos_ranks N (cnt r) r Hr E0). reflexivity. }
      assert (O2 : nth (length (ranks_of r (fun q => cnt q r))) (offsets 0 (map (fun q => cnt q r) (ranks_of N (fun q => cnt q r)))) 0 = off_fr N cnt r r).
      { unfold off_fr. rewrite <- nth_offsets by (apply ranks_in; split; assumption). unfold map_pos. rewrite (pos_ranks N (fun q => cnt q r) r Hr E0). reflexivity. }
      rewrite O1, O2. eexists. split; [reflexivity|]. intros q k Hq Hk. cbv beta.
      destruct (Z.eq_dec q r) as [->|Hn].
      + replace ((_ <=? _) && (_ <? _)) with true by lia. f_equal. ring.
      + assert (Hdisj : off_fr N cnt r q + cnt q r <= off_fr N cnt r r \/ off_fr N cnt r r + cnt r r <= off_fr N cnt r q).
        { unfold off_fr. apply (off_disj (fun q => cnt q r) (fun q => cnt_nonneg q r)); [| |exact Hn]; apply ranks_in; split; auto; lia. }
        replace ((_ <=? _) && (_ <? _)) with false by lia. apply Hib; auto. lia. }
  destruct Hlc as (ib' & -> & Hib').
  destruct (put_fold (in_buf_dest cr) ib' (sched (nel (to cr))) out) as (out' & E & H1 & H2).
  { intros i Hi. apply Hs in Hi. rewrite Eto in Hi. cbn [mk nel] in Hi. rewrite Hbal in Hi by assumption.
    destruct (cell_fr r i Hi) as (q & k & s & d & Hq & Ek & ->). rewrite (Hdest q k s d Hq Ek). eauto. }
  exists out'. split; [exact E|].
  assert (Hsc : forall i, In i (sched (nel (to cr))) <-> 0 <= i < nel (mk N (fun q => cnt q r))).
  { intros i. rewrite Hs, Eto. cbn [mk nel]. rewrite Hbal by assumption. reflexivity. }
  split.
  - intros q k s d Hq Ek. rewrite (H2 (off_fr N cnt r q + Z.of_nat k) d).
    + assert (Hl : (k < length (S q r))%nat) by (apply nth_error_Some; congruence).
      rewrite Hib' by (auto; rewrite Hcnt; lia). apply (Hob q k s d Hq Ek).
    + left. apply Hsc. eapply cell_fr_lt; eassumption.
    + eapply Hdest; eassumption.
    + intros j Hj Ej. apply Hsc in Hj. destruct (cell_fr r j Hj) as (q' & k' & s' & d' & Hq' & Ek' & ->).
      rewrite (Hdest q' k' s' d' Hq' Ek') in Ej. assert (d' = d) by congruence. subst d'.
      destruct (Hinj r q' q k' k s' s d Hr Hq' Hq Ek' Ek) as [-> ->]. reflexivity.
  - intros d Hd. apply H1. intros i Hi Ei. apply Hsc in Hi. destruct (cell_fr r i Hi) as (q' & k' & s' & d' & Hq' & Ek' & ->).
    rewrite (Hdest q' k' s' d' Hq' Ek') in Ei. assert (d' = d) by congruence. subst d'. exact (Hd q' k' s' Hq' Ek').
Qed.
End Comm.
