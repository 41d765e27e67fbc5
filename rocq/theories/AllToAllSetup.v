(** All-to-all communicator: the two ways of setting it up. *)
From Verif Require Import Base GeometryModel HaloModel HaloProofs AllToAllModel AllToAllSpec AllToAllProofs AllToAllExch AllToAllMain.

Lemma recv_all_ext {A} (sends sends' : Z -> list msg) (sb : Z -> table A) r ms :
  (forall m, In m ms -> sends (peer m) = sends' (peer m)) -> recv_all sends sb r ms = recv_all sends' sb r ms.
Proof.
  unfold recv_all. generalize (Some (@tempty A)). induction ms as [|m ms IH]; intros o H; [reflexivity|].
  cbn [fold_left]. unfold recv_one at 2 4. rewrite (H m (or_introl eq_refl)). apply IH. intros; apply H; now right.
Qed.
Lemma recv_all_ext_sb {A} (sends : Z -> list msg) (sb sb' : Z -> table A) r ms :
  (forall m, In m ms -> sb (peer m) = sb' (peer m)) -> recv_all sends sb r ms = recv_all sends sb' r ms.
Proof.
  unfold recv_all. generalize (Some (@tempty A)). induction ms as [|m ms IH]; intros o H; [reflexivity|].
  cbn [fold_left]. unfold recv_one at 2 4. rewrite (H m (or_introl eq_refl)). apply IH. intros; apply H; now right.
Qed.

Lemma sum_to_fold N t : sum_to N t = sumZ (map t (seqZ N)).
Proof.
  unfold sum_to. enough (G : forall L a, fold_left (fun s q => s + t q) L a = a + sumZ (map t L)) by (rewrite G; ring).
  induction L as [|x L IH]; intros a; cbn [fold_left map]; [unfold sumZ; cbn; ring|]. rewrite IH. unfold sumZ. cbn [fold_right]. ring.
Qed.
Lemma sumZ_delta q L : NoDup L -> In q L -> sumZ (map (fun p => if p =? q then 1 else 0) L) = 1.
Proof.
  induction 1 as [|x L Hx Hnd IH]; intros Hq; [destruct Hq|]. unfold sumZ. cbn [map fold_right]. fold (sumZ (map (fun p => if p =? q then 1 else 0) L)).
  destruct (Z.eqb_spec x q) as [->|Hn].
  - enough (sumZ (map (fun p => if p =? q then 1 else 0) L) = 0) by lia. clear -Hx. induction L as [|y L IH]; [reflexivity|].
    unfold sumZ. cbn [map fold_right]. fold (sumZ (map (fun p => if p =? q then 1 else 0) L)). rewrite IH by (intros H; apply Hx; now right).
    destruct (Z.eqb_spec y q) as [->|]; [exfalso; apply Hx; now left|reflexivity].
  - destruct Hq as [->|Hq]; [contradiction|]. rewrite IH by assumption. reflexivity.
Qed.
Lemma sumZ_add (f g : Z -> Z) L : sumZ (map (fun q => f q + g q) L) = sumZ (map f L) + sumZ (map g L).
Proof. induction L as [|x L IH]; [reflexivity|]. unfold sumZ in *. cbn [map fold_right]. rewrite IH. ring. Qed.
Lemma sum_sel N l : (forall e, In e l -> 0 <= e_rank e < N) -> sum_to N (fun q => Z.of_nat (length (sel q l))) = Z.of_nat (length l).
Proof.
  intros H. rewrite sum_to_fold. induction l as [|e l IH].
  - cbn [sel filter length]. induction (seqZ N) as [|x L IH]; [reflexivity|]. unfold sumZ in *. cbn [map fold_right]. rewrite IH. reflexivity.
  - transitivity (sumZ (map (fun q => Z.of_nat (length (sel q l)) + (if q =? e_rank e then 1 else 0)) (seqZ N))).
    + f_equal. apply map_ext. intros q. unfold sel. cbn [filter]. rewrite Z.eqb_sym. destruct (q =? e_rank e); cbn [length]; lia.
    + rewrite sumZ_add, IH by (intros; apply H; now right). rewrite sumZ_delta; [cbn [length]; lia|apply NoDup_seqZ|].
      apply in_seqZ. apply H. now left.
Qed.


Lemma ranks_nil N t : (forall q, 0 <= t q) -> ranks_of N t = [] -> sum_to N t = 0.
Proof. intros Ht E. rewrite (sum_to_tot t), E. reflexivity. Qed.
Lemma ranks_nil_inv N t : (forall q, 0 <= t q) -> sum_to N t = 0 -> ranks_of N t = [].
Proof.
  intros Ht E. rewrite (sum_to_tot t) in E. destruct (ranks_of N t) as [|x l] eqn:El; [reflexivity|]. exfalso.
  assert (Hx : In x (ranks_of N t)) by (rewrite El; now left). apply ranks_in in Hx as [_ Hx].
  cbn [tot fold_right] in E. fold (tot t l) in E. pose proof (tot_nonneg t Ht l). specialize (Ht x). lia.
Qed.


Section K.
Context (N : Z) (HN : 0 < N) (es : Z -> list entry).
Hypothesis Hes : forall r e, 0 <= r < N -> In e (es r) -> 0 <= e_rank e < N.
Let cnt q r := Z.of_nat (length (sel r (es q))).

Lemma known_side q : mk N (nper_rank_temp (es q)) = mk N (cnt q).
Proof. apply mk_ext. intros p _. apply nper_spec. Qed.

Lemma learn {r} : 0 <= r < N ->
  exists d, recv_all (fun q => side_msgs (mk N (cnt q))) (fun q => b_theirs (build_bufs (mk N (cnt q)) (es q))) r (side_msgs (mk N (fun q => cnt q r))) = Some d /\
   forall q k e, 0 <= q < N -> nth_error (sel r (es q)) k = Some e -> d (off_fr N cnt r q + Z.of_nat k) = Some (e_theirs e).
Proof.
  intros Hr. destruct (exch N cnt (fun _ _ => Zle_0_nat _) (fun _ _ => true) (fun _ _ => eq_refl)
    (fun q => b_theirs (build_bufs (mk N (cnt q)) (es q))) r Hr) as (d & E & H).
  assert (Ft : forall (l : list msg), filter (fun _ => true) l = l) by (induction l as [|x l IH]; [reflexivity|cbn [filter]; now rewrite IH]).
  exists d. split.
  - rewrite <- E. rewrite Ft. apply recv_all_ext. intros m _. now rewrite Ft.
  - intros q k e Hq Ek. rewrite H; auto.
    + destruct (build_spec N (es q) (fun e He => Hes q e Hq He) (sum_to N (cnt q)) r k e Ek) as [_ B]. exact B.
    + assert ((k < length (sel r (es q)))%nat) by (apply nth_error_Some; congruence). unfold cnt. lia.
Qed.

Lemma mine r q k e : 0 <= r < N -> nth_error (sel q (es r)) k = Some e ->
  b_mine (build_bufs (mk N (cnt r)) (es r)) (off_to N cnt r q + Z.of_nat k) = Some (e_mine e).
Proof. intros Hr Ek. destruct (build_spec N (es r) (fun e He => Hes r e Hr He) (sum_to N (cnt r)) q k e Ek) as [B _]. exact B. Qed.

Lemma other_side r : 0 <= r < N -> exists o, nper_rank_other_temp N (fun q => nper_rank_temp (es q)) r = Some o /\ mk N o = mk N (fun q => cnt q r) /\ forall q, 0 <= q < N -> o q = cnt q r.
Proof.
  intros Hr. destruct (other_spec N (fun q => nper_rank_temp (es q)) r HN Hr) as (o & E & H). exists o. split; [exact E|].
  assert (H' : forall q, 0 <= q < N -> o q = cnt q r) by (intros q Hq; rewrite H by assumption; apply nper_spec).
  split; [|exact H']. apply mk_ext. exact H'.
Qed.

Hypothesis Hbal : forall r, 0 <= r < N -> sum_to N (cnt r) = sum_to N (fun q => cnt q r).
Lemma cnt0 q r : 0 <= cnt q r. Proof. unfold cnt; lia. Qed.
Lemma sides_s r : 0 <= r < N -> sides_scatter N es r = Some (mk N (cnt r), mk N (fun q => cnt q r)).
Proof.
  intros Hr. unfold sides_scatter. destruct (other_side r Hr) as (o & -> & E & Ho). f_equal.
  rewrite part1_spec; [now rewrite known_side, E|]. intros H.
  rewrite (ranks_of_ext N o (fun q => cnt q r) Ho). apply ranks_nil_inv; [intros; apply cnt0|]. rewrite <- Hbal by assumption.
  apply ranks_nil; [intros; apply cnt0|]. rewrite <- H. apply ranks_of_ext. intros; symmetry; apply nper_spec.
Qed.
Lemma sides_g r : 0 <= r < N -> sides_gather N es r = Some (mk N (fun q => cnt q r), mk N (cnt r)).
Proof.
  intros Hr. unfold sides_gather. destruct (other_side r Hr) as (o & -> & E & Ho). f_equal.
  rewrite part1_spec; [now rewrite known_side, E|]. intros H.
  rewrite (ranks_of_ext N _ (cnt r)) by (intros; apply nper_spec). apply ranks_nil_inv; [intros; apply cnt0|]. rewrite Hbal by assumption.
  apply ranks_nil; [intros; apply cnt0|]. rewrite <- H. symmetry. apply ranks_of_ext. exact Ho.
Qed.
End K.

Lemma NoDup_map_inj {A B C} (f : A -> B) (g : A -> C) L : NoDup (map g L) -> (forall x y, In x L -> In y L -> f x = f y -> g x = g y) -> NoDup (map f L).
Proof.
  induction L as [|x L IH]; intros Hn H; [constructor|]. cbn [map] in *. inversion Hn as [|? ? Hx Hn']; subst. constructor.
  - intros Hin. apply in_map_iff in Hin as (y & Ey & Hy). apply Hx. rewrite (H x y); [now apply in_map|now left|now right|congruence].
  - apply IH; [assumption|]. intros; apply H; auto; now right.
Qed.
Lemma NoDup_map_filter {A B} (f : A -> B) P L : NoDup (map f L) -> NoDup (map f (filter P L)).
Proof.
  induction L as [|x L IH]; intros H; [constructor|]. cbn [map] in H. inversion H as [|? ? Hx Hn]; subst. cbn [filter].
  destruct (P x); [|now apply IH]. cbn [map]. constructor; [|now apply IH]. intros Hin. apply Hx.
  apply in_map_iff in Hin as (y & <- & Hy). apply in_map. now apply filter_In in Hy.
Qed.
Lemma sel_map {B} (f : B -> entry) q l : sel q (map f l) = map f (filter (fun p => e_rank (f p) =? q) l).
Proof. unfold sel. induction l as [|x l IH]; [reflexivity|]. cbn [map filter]. destruct (_ =? q); cbn [map]; now rewrite IH. Qed.

(** *** scattering *)
Section Scatter.
Context (N : Z) (HN : 0 < N) (sl : Z -> list (Z * Z)).
Hypothesis Hc : forall r p, 0 <= r < N -> In p (sl r) -> 0 <= snd p <= int_max.
Hypothesis Hnd : forall r, 0 <= r < N -> NoDup (map snd (sl r)).
Hypothesis Hdj : forall r q p p', 0 <= r < N -> 0 <= q < N -> In p (sl r) -> In p' (sl q) -> snd p = snd p' -> r = q.
Hypothesis Hbal : forall r, 0 <= r < N -> received N sl r = Z.of_nat (length (sl r)).
Hypothesis Hself : forall r, 0 <= r < N -> local_part_right N (moved N sl) r.

Let es r := map (entry_of_scatter N) (sl r).
Let S r q := map (fun e => (e_mine e, e_theirs e)) (sel q (es r)).
Let cnt q r := Z.of_nat (length (sel r (es q))).

Lemma es_ok r e : 0 <= r < N -> In e (es r) -> 0 <= e_rank e < N.
Proof.
  intros Hr He. apply in_map_iff in He as (p & <- & Hp). cbn [entry_of_scatter e_rank]. specialize (Hc r p Hr Hp).
  rewrite Z.rem_mod_nonneg by lia. apply Z.mod_pos_bound; lia.
Qed.
Lemma cnt_moved r q : 0 <= r < N -> cnt r q = moved N sl r q.
Proof.
  intros Hr. unfold cnt, moved, es. rewrite sel_map, map_length. do 2 f_equal. apply filter_ext_in. intros p Hp.
  cbn [entry_of_scatter e_rank]. specialize (Hc r p Hr Hp). now rewrite Z.rem_mod_nonneg by lia.
Qed.
Lemma bal r : 0 <= r < N -> sum_to N (cnt r) = sum_to N (fun q => cnt q r).
Proof.
  intros Hr. unfold cnt at 1. rewrite sum_sel by (intros e He; now apply (es_ok r)). unfold es. rewrite map_length, <- Hbal by assumption.
  rewrite sum_to_fold. unfold received. f_equal. apply map_ext_in. intros q Hq. apply in_seqZ in Hq. symmetry. now apply cnt_moved.
Qed.
Lemma S_len r q : Z.of_nat (length (S r q)) = cnt r q. Proof. unfold S, cnt. now rewrite map_length. Qed.
Lemma S_in r q s d : 0 <= r < N -> In (s, d) (S r q) <-> exists c, In (s, c) (sl r) /\ c mod N = q /\ c / N = d.
Proof.
  intros Hr. unfold S, es. rewrite sel_map, map_map, in_map_iff. split.
  - intros ((s' & c) & E & Hin). apply filter_In in Hin as [Hin Hq]. cbn [entry_of_scatter e_mine e_theirs e_rank fst snd] in *.
    specialize (Hc r (s', c) Hr Hin). cbn [snd] in Hc. rewrite Z.rem_mod_nonneg in Hq by lia. rewrite Z.quot_div_nonneg in E by lia.
    injection E as <- <-. exists c. repeat split; [assumption|lia].
  - intros (c & Hin & Hq & Hd). exists (s, c). specialize (Hc r (s, c) Hr Hin). cbn [snd] in Hc. cbn [entry_of_scatter e_mine e_theirs e_rank fst snd].
    rewrite Z.quot_div_nonneg by lia. split; [congruence|]. apply filter_In. split; [assumption|]. cbn [entry_of_scatter e_rank snd].
    rewrite Z.rem_mod_nonneg by lia. lia.
Qed.
Lemma S_nodup r q : 0 <= r < N -> NoDup (map snd (S r q)).
Proof.
  intros Hr. unfold S, es. rewrite sel_map, !map_map. cbn [entry_of_scatter e_mine e_theirs snd].
  apply (NoDup_map_inj _ snd); [now apply NoDup_map_filter, Hnd|]. intros x y Hx Hy E.
  apply filter_In in Hx as [Hx Qx], Hy as [Hy Qy]. cbn [entry_of_scatter e_rank] in Qx, Qy.
  pose proof (Hc r x Hr Hx). pose proof (Hc r y Hr Hy). rewrite Z.rem_mod_nonneg in Qx, Qy by lia.
  rewrite !Z.quot_div_nonneg in E by lia. rewrite (Z.div_mod (snd x) N), (Z.div_mod (snd y) N) by lia. lia.
Qed.
Lemma S_inj r q1 q2 k1 k2 s1 s2 d : 0 <= r < N -> 0 <= q1 < N -> 0 <= q2 < N ->
  nth_error (S q1 r) k1 = Some (s1, d) -> nth_error (S q2 r) k2 = Some (s2, d) -> q1 = q2 /\ k1 = k2.
Proof.
  intros Hr H1 H2 E1 E2. pose proof (nth_error_In _ _ E1) as I1. pose proof (nth_error_In _ _ E2) as I2.
  apply S_in in I1 as (c1 & I1 & M1 & D1); [|assumption]. apply S_in in I2 as (c2 & I2 & M2 & D2); [|assumption].
  assert (c1 = c2). { rewrite (Z.div_mod c1 N), (Z.div_mod c2 N) by lia. lia. } subst c2.
  assert (q1 = q2) by (apply (Hdj q1 q2 (s1, c1) (s2, c1)); auto). subst q2. split; [reflexivity|].
  pose proof (S_nodup q1 r H1) as Hn. rewrite NoDup_nth_error in Hn. apply Hn.
  - rewrite map_length. apply nth_error_Some. congruence.
  - rewrite !nth_error_map, E1, E2. reflexivity.
Qed.

Lemma local_part_self m : (forall r q, 0 <= r < N -> 0 <= q < N -> m r q = cnt r q) -> forall r, 0 <= r < N -> local_part_right N m r -> cnt r r <> 0 ->
  nth_error (map (cnt r) (ranks_of N (cnt r))) (length (ranks_of r (fun q => cnt q r))) = Some (cnt r r).
Proof.
  intros Hm r Hr H H0. unfold local_part_right in H. rewrite Hm in H by assumption. rewrite map_ranks. unfold ranks_of.
  rewrite <- H by assumption. do 2 f_equal.
  - apply map_ext_in. intros q Hq. apply in_seqZ in Hq. symmetry. now apply Hm.
  - apply filter_ext_in. intros q Hq. apply in_seqZ in Hq. rewrite Hm by lia. reflexivity.
Qed.

Lemma rng_fr r m : In m (side_msgs (mk N (fun q => cnt q r))) -> 0 <= peer m < N.
Proof.
  intros Hm. unfold mk in Hm. rewrite (side_msgs_spec (fun q => cnt q r)) in Hm by apply ranks_nodup.
  apply in_map_iff in Hm as (p & <- & Hp). apply ranks_in in Hp. cbn [peer]. tauto.
Qed.
Lemma Slen' r q : cnt r q = Z.of_nat (length (S r q)). Proof. symmetry. apply S_len. Qed.

Lemma scatter_setup_ok r : 0 <= r < N -> exists c, setup_scatter N sl r = Some c /\ comm_ok N S cnt r c.
Proof.
  intros Hr. unfold setup_scatter. replace (scatter_ok N (sl r)) with true.
  2:{ symmetry. unfold scatter_ok. apply forallb_forall. intros p Hp. specialize (Hc r p Hr Hp). rewrite Z.rem_mod_nonneg by lia.
      pose proof (Z.mod_pos_bound (snd p) N HN). unfold in_int, int_min. lia. }
  cbn [negb]. cbv zeta. change (fun q : Z => map (entry_of_scatter N) (sl q)) with es.
  rewrite (sides_s N HN es es_ok bal r Hr).
  destruct (learn N es es_ok Hr) as (d & E & H).
  fold cnt in E, H. change (fun q r0 : Z => Z.of_nat (length (sel r0 (es q)))) with cnt in E, H |- *.
  rewrite (recv_all_ext _ (fun q => side_msgs (mk N (cnt q)))).
  2:{ intros m Hm. rewrite (sides_s N HN es es_ok bal) by (eapply rng_fr; exact Hm). reflexivity. }
  rewrite (recv_all_ext_sb _ _ (fun q => b_theirs (build_bufs (mk N (cnt q)) (es q)))).
  2:{ intros m Hm. rewrite (sides_s N HN es es_ok bal) by (eapply rng_fr; exact Hm). reflexivity. }
  match goal with |- context [recv_all ?a ?b ?c ?e] => replace (recv_all a b c e) with (Some d) by (symmetry; exact E) end.
  assert (HD : forall q k s x, 0 <= q < N -> nth_error (S q r) k = Some (s, x) -> d (off_fr N cnt r q + Z.of_nat k) = Some x).
  { intros q k s x Hq Ek. unfold S in Ek. rewrite nth_error_map in Ek. destruct (nth_error (sel r (es q)) k) as [e|] eqn:Ee; [|discriminate].
    injection Ek as <- <-. now apply H. }
  change (fun q : Z => Z.of_nat (length (sel r (es q)))) with (fun q => cnt q r).
  rewrite (dest_check_ok N S cnt Slen' S_inj r d Hr).
  - eexists. split; [reflexivity|]. unfold comm_ok. cbn [to fr out_buf_source in_buf_dest]. split; [reflexivity|]. split; [reflexivity|]. split; [|exact HD].
    intros q k s x Hq Ek. unfold S in Ek. rewrite nth_error_map in Ek. destruct (nth_error (sel q (es r)) k) as [e|] eqn:Ee; [|discriminate].
    injection Ek as <- <-. now apply (mine N es es_ok).
  - intros q k s x Hq Ek. split; [now apply (HD q k s)|]. apply nth_error_In in Ek. apply S_in in Ek as (c & Hin & _ & <-); [|assumption].
    apply Z.div_pos; [|assumption]. now apply (Hc q _ Hq) in Hin.
Qed.

Theorem scatter_main {A} (sched : Z -> list Z) (input : Z -> table A) (out : table A) :
  (forall n i, In i (sched n) <-> 0 <= i < n) ->
  forall r, 0 <= r < N ->
  exists out', communicate (setup_scatter N sl) sched input out r = Some out' /\
    (forall q s c, 0 <= q < N -> In (s, c) (sl q) -> c mod N = r -> out' (c / N) = input q s) /\
    (forall d, (forall q s c, 0 <= q < N -> In (s, c) (sl q) -> c mod N = r -> c / N <> d) -> out' d = out d).
Proof.
  intros Hs r Hr.
  destruct (communicate_main N S cnt Slen' S_inj bal (fun r Hr => local_part_self (moved N sl) (fun r q Hr Hq => eq_sym (cnt_moved r q Hr)) r Hr (Hself r Hr))
    (setup_scatter N sl) sched input out Hs scatter_setup_ok r Hr) as (out' & E & H1 & H2).
  exists out'. split; [exact E|]. split.
  - intros q s c Hq Hin Hm. assert (Hi : In (s, c / N) (S q r)) by (apply S_in; eauto).
    apply In_nth_error in Hi as [k Ek]. now apply (H1 q k s).
  - intros d Hd. apply H2. intros q k s Hq Ek. apply nth_error_In in Ek. apply S_in in Ek as (c & Hin & Hm & Hdv); [|assumption].
    exact (Hd q s c Hq Hin Hm Hdv).
Qed.
End Scatter.

(** *** gathering *)
Section Gather.
Context (N : Z) (HN : 0 < N) (gl : Z -> list (Z * Z)).
Hypothesis Hc : forall r p, 0 <= r < N -> In p (gl r) -> 0 <= fst p <= int_max /\ 0 <= snd p.
Hypothesis Hnd : forall r, 0 <= r < N -> NoDup (map snd (gl r)).
Hypothesis Hbal : forall r, 0 <= r < N -> asked_from N gl r = Z.of_nat (length (gl r)).
Hypothesis Hself : forall r, 0 <= r < N -> local_part_right N (fun p q => asked N gl q p) r.

Let es r := map (entry_of_gather N) (gl r).
(** elements going from r to q: those asked by q to r *)
Let S r q := map (fun e => (e_theirs e, e_mine e)) (sel r (es q)).
Let cntk q r := Z.of_nat (length (sel r (es q))).
Let cnt r q := cntk q r.

Lemma es_ok' r e : 0 <= r < N -> In e (es r) -> 0 <= e_rank e < N.
Proof.
  intros Hr He. apply in_map_iff in He as (p & <- & Hp). cbn [entry_of_gather e_rank]. specialize (Hc r p Hr Hp).
  rewrite Z.rem_mod_nonneg by lia. apply Z.mod_pos_bound; lia.
Qed.
Lemma cnt_asked r q : 0 <= r < N -> cntk r q = asked N gl r q.
Proof.
  intros Hr. unfold cntk, asked, es. rewrite sel_map, map_length. do 2 f_equal. apply filter_ext_in. intros p Hp.
  cbn [entry_of_gather e_rank]. specialize (Hc r p Hr Hp). now rewrite Z.rem_mod_nonneg by lia.
Qed.
Lemma bal' r : 0 <= r < N -> sum_to N (cntk r) = sum_to N (fun q => cntk q r).
Proof.
  intros Hr. unfold cntk at 1. rewrite sum_sel by (intros e He; now apply (es_ok' r)). unfold es. rewrite map_length, <- Hbal by assumption.
  rewrite sum_to_fold. unfold asked_from. f_equal. apply map_ext_in. intros q Hq. apply in_seqZ in Hq. symmetry. now apply cnt_asked.
Qed.
Lemma Glen r q : cnt r q = Z.of_nat (length (S r q)). Proof. unfold S, cnt, cntk. now rewrite map_length. Qed.
Lemma G_in r q s d : 0 <= q < N -> In (s, d) (S r q) <-> exists c, In (c, d) (gl q) /\ c mod N = r /\ c / N = s.
Proof.
  intros Hr. unfold S, es. rewrite sel_map, map_map, in_map_iff. split.
  - intros ((c & d') & E & Hin). apply filter_In in Hin as [Hin Hq]. cbn [entry_of_gather e_mine e_theirs e_rank fst snd] in *.
    specialize (Hc q (c, d') Hr Hin). cbn [fst] in Hc. rewrite Z.rem_mod_nonneg in Hq by lia. rewrite Z.quot_div_nonneg in E by lia.
    injection E as <- <-. exists c. repeat split; [assumption|lia].
  - intros (c & Hin & Hq & Hd). exists (c, d). specialize (Hc q (c, d) Hr Hin). cbn [fst] in Hc. cbn [entry_of_gather e_mine e_theirs e_rank fst snd].
    rewrite Z.quot_div_nonneg by lia. split; [congruence|]. apply filter_In. split; [assumption|]. cbn [entry_of_gather e_rank fst].
    rewrite Z.rem_mod_nonneg by lia. lia.
Qed.
Lemma G_nodup r q : 0 <= q < N -> NoDup (map snd (S r q)).
Proof.
  intros Hr. unfold S, es. rewrite sel_map, !map_map. cbn [entry_of_gather e_mine e_theirs snd]. now apply NoDup_map_filter, Hnd.
Qed.
Lemma G_inj r q1 q2 k1 k2 s1 s2 d : 0 <= r < N -> 0 <= q1 < N -> 0 <= q2 < N ->
  nth_error (S q1 r) k1 = Some (s1, d) -> nth_error (S q2 r) k2 = Some (s2, d) -> q1 = q2 /\ k1 = k2.
Proof.
  intros Hr H1 H2 E1 E2. pose proof (nth_error_In _ _ E1) as I1. pose proof (nth_error_In _ _ E2) as I2.
  apply G_in in I1 as (c1 & I1 & M1 & D1); [|assumption]. apply G_in in I2 as (c2 & I2 & M2 & D2); [|assumption].
  assert (c1 = c2).
  { apply In_nth_error in I1 as [a Ea], I2 as [b Eb]. pose proof (Hnd r Hr) as Hn. rewrite NoDup_nth_error in Hn.
    assert (a = b) by (apply Hn; [rewrite map_length; apply nth_error_Some; congruence|rewrite !nth_error_map, Ea, Eb; reflexivity]). congruence. }
  subst c2. assert (Hqq : q1 = q2) by congruence. split; [exact Hqq|]. rewrite <- Hqq in E2.
  pose proof (G_nodup q1 r Hr) as Hn. rewrite NoDup_nth_error in Hn. apply Hn.
  - rewrite map_length. apply nth_error_Some. congruence.
  - rewrite !nth_error_map, E1, E2. reflexivity.
Qed.
Lemma rng_to r m : In m (side_msgs (mk N (fun q => cntk q r))) -> 0 <= peer m < N.
Proof.
  intros Hm. unfold mk in Hm. rewrite (side_msgs_spec (fun q => cntk q r)) in Hm by apply ranks_nodup.
  apply in_map_iff in Hm as (p & <- & Hp). apply ranks_in in Hp. cbn [peer]. tauto.
Qed.

Lemma gather_setup_ok r : 0 <= r < N -> exists c, setup_gather N gl r = Some c /\ comm_ok N S cnt r c.
Proof.
  intros Hr. unfold setup_gather. replace (gather_ok N (gl r)) with true.
  2:{ symmetry. unfold gather_ok. apply forallb_forall. intros p Hp. specialize (Hc r p Hr Hp). rewrite Z.rem_mod_nonneg by lia.
      pose proof (Z.mod_pos_bound (fst p) N HN). unfold in_int, int_min. lia. }
  cbn [negb]. cbv zeta. change (fun q : Z => map (entry_of_gather N) (gl q)) with es.
  rewrite (sides_g N HN es es_ok' bal' r Hr).
  destruct (learn N es es_ok' Hr) as (d & E & H).
  change (fun q r0 : Z => Z.of_nat (length (sel r0 (es q)))) with cntk in E, H |- *.
  rewrite (recv_all_ext _ (fun q => side_msgs (mk N (cntk q)))).
  2:{ intros m Hm. rewrite (sides_g N HN es es_ok' bal') by (eapply rng_to; exact Hm). reflexivity. }
  rewrite (recv_all_ext_sb _ _ (fun q => b_theirs (build_bufs (mk N (cntk q)) (es q)))).
  2:{ intros m Hm. rewrite (sides_g N HN es es_ok' bal') by (eapply rng_to; exact Hm). reflexivity. }
  match goal with |- context [recv_all ?a ?b ?c ?e] => replace (recv_all a b c e) with (Some d) by (symmetry; exact E) end.
  change (mk N (fun r0 : Z => Z.of_nat (length (sel r0 (es r))))) with (mk N (cntk r)).
  assert (HD : forall q k s x, 0 <= q < N -> nth_error (S q r) k = Some (s, x) ->
     b_mine (build_bufs (mk N (cntk r)) (es r)) (off_fr N cnt r q + Z.of_nat k) = Some x).
  { intros q k s x Hq Ek. unfold S in Ek. rewrite nth_error_map in Ek. destruct (nth_error (sel q (es r)) k) as [e|] eqn:Ee; [|discriminate].
    injection Ek as <- <-. now apply (mine N es es_ok'). }
  change (nel (mk N (cntk r))) with (nel (mk N (fun q => cnt q r))).
  rewrite (dest_check_ok N S cnt Glen G_inj r _ Hr).
  - eexists. split; [reflexivity|]. unfold comm_ok. cbn [to fr out_buf_source in_buf_dest]. split; [reflexivity|]. split; [reflexivity|]. split; [|exact HD].
    intros q k s x Hq Ek. unfold S in Ek. rewrite nth_error_map in Ek. destruct (nth_error (sel r (es q)) k) as [e|] eqn:Ee; [|discriminate].
    injection Ek as <- <-. now apply H.
  - intros q k s x Hq Ek. split; [now apply (HD q k s)|]. apply nth_error_In in Ek. apply G_in in Ek as (c & Hin & _ & _); [|assumption].
    now apply (Hc r _ Hr) in Hin.
Qed.

Theorem gather_main {A} (sched : Z -> list Z) (input : Z -> table A) (out : table A) :
  (forall n i, In i (sched n) <-> 0 <= i < n) ->
  forall r, 0 <= r < N ->
  exists out', communicate (setup_gather N gl) sched input out r = Some out' /\
    (forall c d, In (c, d) (gl r) -> out' d = input (c mod N) (c / N)) /\
    (forall d, (forall c, ~ In (c, d) (gl r)) -> out' d = out d).
Proof.
  intros Hs r Hr.
  assert (Hself' : forall r, 0 <= r < N -> cnt r r <> 0 ->
    nth_error (map (cnt r) (ranks_of N (cnt r))) (length (ranks_of r (fun q => cnt q r))) = Some (cnt r r)).
  { intros p Hp H0. pose proof (Hself p Hp) as Hse. unfold local_part_right in Hse. rewrite map_ranks. unfold ranks_of.
    unfold cnt in *. rewrite <- cnt_asked in Hse by assumption. rewrite <- Hse by assumption. do 2 f_equal.
    - apply map_ext_in. intros q Hq. apply in_seqZ in Hq. now apply cnt_asked.
    - apply filter_ext_in. intros q Hq. apply in_seqZ in Hq. rewrite cnt_asked by lia. reflexivity. }
  assert (Hbal' : forall r, 0 <= r < N -> sum_to N (cnt r) = sum_to N (fun q => cnt q r)).
  { intros p Hp. symmetry. exact (bal' p Hp). }
  destruct (communicate_main N S cnt Glen G_inj Hbal' Hself' (setup_gather N gl) sched input out Hs gather_setup_ok r Hr) as (out' & E & H1 & H2).
  exists out'. split; [exact E|]. split.
  - intros c d Hin. assert (Hi : In (c / N, d) (S (c mod N) r)) by (apply G_in; eauto).
    apply In_nth_error in Hi as [k Ek]. apply (H1 (c mod N) k (c / N)); [|exact Ek]. apply Z.mod_pos_bound; lia.
  - intros d Hd. apply H2. intros q k s Hq Ek. apply nth_error_In in Ek. apply G_in in Ek as (c & Hin & _ & _); [|assumption].
    exact (Hd c Hin).
Qed.
End Gather.
