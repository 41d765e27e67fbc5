(** The exchange of the links: blocks of links asked by each rank to each displacement. *)
From Verif Require Import Base GeometryModel HaloModel HaloProofs ArbModel.

Fixpoint zfrom (a : Z) (n : nat) : list Z := match n with O => [] | S n => a :: zfrom (a + 1) n end.
Lemma zfrom_in a n i : In i (zfrom a n) <-> a <= i < a + Z.of_nat n.
Proof. revert a. induction n as [|n IH]; intros a; cbn [zfrom In]; [lia|]. rewrite IH. lia. Qed.
Lemma zfrom_app a n m : zfrom a (n + m) = zfrom a n ++ zfrom (a + Z.of_nat n) m.
Proof. revert a. induction n as [|n IH]; intros a; cbn [zfrom Nat.add app]; [now rewrite Z.add_0_r|]. rewrite IH. do 3 f_equal. lia. Qed.
Lemma zfrom_NoDup a n : NoDup (zfrom a n).
Proof. revert a. induction n as [|n IH]; intros a; cbn [zfrom]; constructor; auto. rewrite zfrom_in. lia. Qed.
Lemma seqZ_zfrom n : map (fun d => d + 1) (seqZ n) = zfrom 1 (Z.to_nat n).
Proof.
  unfold seqZ. rewrite map_map. generalize (Z.to_nat n) as k. clear n.
  enough (H : forall k a, map (fun x => Z.of_nat x + 1) (seq a k) = zfrom (Z.of_nat a + 1) k) by (intros k; apply (H k 0%nat)).
  induction k as [|k IH]; intros a; [reflexivity|]. cbn [seq map zfrom]. rewrite IH. do 2 f_equal. lia.
Qed.

Section Blocks.
Context {A : Type} (B : Z -> list A).
Definition offB (d : Z) : Z := Z.of_nat (length (flat_map B (zfrom 1 (Z.to_nat (d - 1))))).
Definition ne (d : Z) : bool := negb (Z.of_nat (length (B d)) =? 0).
Lemma offB_next d : 1 <= d -> offB (d + 1) = offB d + Z.of_nat (length (B d)).
Proof.
  intros H. unfold offB. replace (Z.to_nat (d + 1 - 1)) with (Z.to_nat (d - 1) + 1)%nat by lia. rewrite zfrom_app, flat_map_app, app_length.
  replace (1 + Z.of_nat (Z.to_nat (d - 1))) with d by lia. cbn [zfrom flat_map]. rewrite app_nil_r. lia.
Qed.
Lemma offB_mono d e : 1 <= d < e -> offB d + Z.of_nat (length (B d)) <= offB e.
Proof.
  intros H. rewrite <- offB_next by lia. unfold offB. replace (Z.to_nat (e - 1)) with (Z.to_nat (d + 1 - 1) + Z.to_nat (e - d - 1))%nat by lia.
  rewrite zfrom_app, flat_map_app, app_length. lia.
Qed.
Lemma offB_nth n d k x : 1 <= d < 1 + Z.of_nat n -> nth_error (B d) k = Some x -> nth_error (flat_map B (zfrom 1 n)) (Z.to_nat (offB d) + k) = Some x.
Proof.
  intros H E. replace n with (Z.to_nat (d - 1) + S (n - Z.to_nat d))%nat by lia. rewrite zfrom_app, flat_map_app. unfold offB. rewrite Nat2Z.id.
  rewrite nth_error_app2 by lia. replace (_ + k - _)%nat with k by lia. cbn [zfrom flat_map].
  replace (1 + Z.of_nat (Z.to_nat (d - 1))) with d by lia. rewrite nth_error_app1; [assumption|]. apply nth_error_Some. congruence.
Qed.
(** each position of the buffer belongs to one block *)
Lemma offB_find n j : (j < length (flat_map B (zfrom 1 n)))%nat ->
  exists d k x, 1 <= d < 1 + Z.of_nat n /\ nth_error (B d) k = Some x /\ j = (Z.to_nat (offB d) + k)%nat /\ nth_error (flat_map B (zfrom 1 n)) j = Some x.
Proof.
  induction n as [|n IH]; intros Hj; [cbn in Hj; lia|].
  replace (S n) with (n + 1)%nat in * by lia. rewrite zfrom_app, flat_map_app in *. cbn [zfrom flat_map] in *. rewrite app_nil_r in *. rewrite app_length in Hj.
  destruct (Nat.lt_ge_cases j (length (flat_map B (zfrom 1 n)))) as [H|H].
  - destruct (IH H) as (d & k & x & H1 & H2 & H3 & H4). exists d, k, x. rewrite nth_error_app1 by assumption. repeat split; auto; lia.
  - destruct (nth_error (B (1 + Z.of_nat n)) (j - length (flat_map B (zfrom 1 n)))) as [x|] eqn:E.
    2:{ apply nth_error_None in E. lia. }
    exists (1 + Z.of_nat n), (j - length (flat_map B (zfrom 1 n)))%nat, x. split; [lia|]. split; [assumption|]. split.
    + unfold offB. replace (Z.to_nat (1 + Z.of_nat n - 1)) with n by lia. lia.
    + rewrite nth_error_app2 by assumption. exact E.
Qed.
Lemma with_offsets_map (p : Z -> Z) tg n : forall a, 1 <= a ->
  with_offsets (offB a) (map (fun d => (p d, Z.of_nat (length (B d)))) (filter ne (zfrom a n))) tg =
  map (fun d => mkMsg (p d) (tg (p d)) (offB d) (Z.of_nat (length (B d)))) (filter ne (zfrom a n)).
Proof.
  induction n as [|n IH]; intros a Ha; [reflexivity|]. cbn [zfrom filter].
  assert (E := offB_next a Ha). destruct (ne a) eqn:En.
  - cbn [map with_offsets]. rewrite <- E, IH by lia. reflexivity.
  - unfold ne in En. replace (offB a) with (offB (a + 1)) by lia. apply IH. lia.
Qed.
End Blocks.

Section Exch.
Context (g : grid) (HN : 0 < nranks g).
Notation N := (nranks g).
Definition down (r d : Z) : Z := Z.rem (r + N - d) N.
Definition up (r d : Z) : Z := Z.rem (r + d) N.
Notation n := (Z.to_nat (N - 1)).

Lemma down_range r d : 0 <= r < N -> 1 <= d < N -> 0 <= down r d < N.
Proof. intros. unfold down. apply Z.rem_bound_pos; lia. Qed.
Lemma up_range r d : 0 <= r < N -> 1 <= d < N -> 0 <= up r d < N.
Proof. intros. unfold up. apply Z.rem_bound_pos; lia. Qed.
Lemma mod_small_or a : 0 <= a < 2 * N -> Z.rem a N = if a <? N then a else a - N.
Proof.
  intros H. destruct (Z.ltb_spec a N) as [H1|H1].
  - apply Z.rem_small. lia.
  - rewrite Z.rem_mod_nonneg by lia. symmetry. apply (Z.mod_unique _ _ 1); lia.
Qed.
Lemma down_up r d : 0 <= r < N -> 1 <= d < N -> down (up r d) d = r.
Proof.
  intros Hr Hd. unfold down, up. rewrite (mod_small_or (r + d)) by lia. rewrite mod_small_or by (destruct (Z.ltb_spec (r + d) N); lia).
  destruct (Z.ltb_spec (r + d) N).
  - destruct (Z.ltb_spec (r + d + N - d) N); lia.
  - destruct (Z.ltb_spec (r + d - N + N - d) N); lia.
Qed.
Lemma up_down r d : 0 <= r < N -> 1 <= d < N -> up (down r d) d = r.
Proof.
  intros Hr Hd. unfold down, up. rewrite (mod_small_or (r + N - d)) by lia. rewrite mod_small_or by (destruct (Z.ltb_spec (r + N - d) N); lia).
  destruct (Z.ltb_spec (r + N - d) N).
  - destruct (Z.ltb_spec (r + N - d + d) N); lia.
  - destruct (Z.ltb_spec (r + N - d - N + d) N); lia.
Qed.
Lemma up_inj r d e : 0 <= r < N -> 1 <= d < N -> 1 <= e < N -> up r d = up r e -> d = e.
Proof. intros Hr Hd He. unfold up. rewrite !mod_small_or by lia. destruct (Z.ltb_spec (r + d) N); destruct (Z.ltb_spec (r + e) N); lia. Qed.

Context (B : Z -> Z -> list Z) (ind : Z -> list Z).
Context (Hask : forall r d, 0 <= r < N -> 1 <= d < N -> ask g ind d r = Some (down r d, down r d * N + r, Z.of_nat (length (B r d)), B r d)).
(** the blocks sent by rank r *)
Definition S_ (r d : Z) : list Z := B (up r d) d.
Definition comms_of (r : Z) : comms :=
  let D := zfrom 1 n in let ds := filter (ne (S_ r)) D in let dr := filter (ne (B r)) D in
  mkComms (map (up r) ds) (map (fun d => Z.of_nat (length (S_ r d))) ds) (flat_map (S_ r) D) (map (down r) dr) (map (fun d => Z.of_nat (length (B r d))) dr).

Lemma setup_ok r : 0 <= r < N -> setup_sender_receivers g ind r = Some (comms_of r).
Proof.
  intros Hr. unfold setup_sender_receivers. rewrite seqZ_zfrom.
  enough (H : forall m, (m <= n)%nat -> fold_left (setup_step g ind r) (zfrom 1 m) (Some (mkComms [] [] [] [] [])) =
    Some (let D := zfrom 1 m in let ds := filter (ne (S_ r)) D in let dr := filter (ne (B r)) D in
      mkComms (map (up r) ds) (map (fun d => Z.of_nat (length (S_ r d))) ds) (flat_map (S_ r) D) (map (down r) dr) (map (fun d => Z.of_nat (length (B r d))) dr)))
    by (now apply H).
  induction m as [|m IH]; intros Hm; [reflexivity|].
  replace (S m) with (m + 1)%nat by lia. rewrite zfrom_app, fold_left_app, IH by lia. cbn [zfrom fold_left].
  set (d := 1 + Z.of_nat m) in *. assert (Hd : 1 <= d < N) by lia.
  unfold setup_step. rewrite (Hask r d Hr Hd). fold (up r d).
  rewrite (Hask (up r d) d (up_range r d Hr Hd) Hd). rewrite down_up by assumption. rewrite !Z.eqb_refl. cbn [andb].
  cbv zeta. rewrite !filter_app, !flat_map_app, !map_app. cbn [filter flat_map]. rewrite app_nil_r.
  change (B (up r d) d) with (S_ r d). fold (ne (S_ r) d). fold (ne (B r) d). fold (down r d).
  destruct (ne (S_ r) d) eqn:E1; destruct (ne (B r) d) eqn:E2; cbn [ranks_to_send nlinks_to_send links_to_send ranks_to_recv nlinks_to_recv map]; rewrite ?app_nil_r; try reflexivity;
  (assert (E3 : S_ r d = []) by (unfold ne in E1; destruct (S_ r d); [reflexivity|cbn [length] in E1; lia])); rewrite E3, app_nil_r; reflexivity.
Qed.

Lemma combine_map {X Y W} (f : X -> Y) (h : X -> W) l : combine (map f l) (map h l) = map (fun x => (f x, h x)) l.
Proof. induction l; cbn; congruence. Qed.
Lemma offB_1 (b : Z -> list Z) : offB b 1 = 0.
Proof. reflexivity. Qed.

Theorem gather_ok {T} (fetch : Z -> Z -> option T) r : 0 <= r < N ->
  exists rb, gather_nonloc g (setup_sender_receivers g ind) fetch r = Some rb /\
    forall d k t, 1 <= d < N -> nth_error (B r d) k = Some t -> rb (offB (B r) d + Z.of_nat k) = fetch (down r d) t.
Proof.
  intros Hr. unfold gather_nonloc. rewrite (setup_ok r Hr).
  set (sends := fun q => match setup_sender_receivers g ind q with Some c => send_msgs g c q | None => [] end).
  set (sb := fun q i => match setup_sender_receivers g ind q with
       | Some c => if 0 <=? i then match nth_error (links_to_send c) (Z.to_nat i) with Some t => fetch q t | None => None end else None
       | None => None end).
  set (rmsg := fun d => mkMsg (down r d) (r * N + down r d) (offB (B r) d) (Z.of_nat (length (B r d)))).
  set (smsg := fun q d => mkMsg (up q d) (up q d * N + q) (offB (S_ q) d) (Z.of_nat (length (S_ q d)))).
  assert (Er : recv_msgs g (comms_of r) r = map rmsg (filter (ne (B r)) (zfrom 1 n))).
  { unfold recv_msgs, comms_of. cbn [ranks_to_recv nlinks_to_recv]. rewrite combine_map. rewrite <- (offB_1 (B r)). now rewrite with_offsets_map by lia. }
  assert (Es : forall q, 0 <= q < N -> sends q = map (smsg q) (filter (ne (S_ q)) (zfrom 1 n))).
  { intros q Hq. unfold sends. rewrite (setup_ok q Hq). unfold send_msgs, comms_of. cbn [ranks_to_send nlinks_to_send]. rewrite combine_map.
    rewrite <- (offB_1 (S_ q)). now rewrite with_offsets_map by lia. }
  rewrite Er.
  assert (Hsrc : exists src : msg -> msg, forall d, In d (filter (ne (B r)) (zfrom 1 n)) -> src (rmsg d) = smsg (down r d) d).
  { exists (fun m => match find (fun d => peer m =? down r d) (zfrom 1 n) with Some d => smsg (down r d) d | None => m end).
    intros d Hd. apply filter_In in Hd as [Hd _]. cbn [peer rmsg]. rewrite zfrom_in in Hd.
    assert (Hinj : forall e, 1 <= e < N -> down r e = down r d -> e = d).
    { intros e He E. apply (up_inj (down r d)); [apply down_range; lia|lia|lia|]. rewrite up_down by lia. rewrite <- E. now apply up_down. }
    destruct (find _ _) as [e|] eqn:Ef.
    - apply find_some in Ef as [He Ee]. rewrite zfrom_in in He. apply Z.eqb_eq in Ee. rewrite (Hinj e) by lia. reflexivity.
    - exfalso. eapply find_none in Ef; [|rewrite zfrom_in; exact Hd]. cbn beta in Ef. now rewrite Z.eqb_refl in Ef. }
  destruct Hsrc as [src Hsrc].
  destruct (recv_all_spec sends sb r src (map rmsg (filter (ne (B r)) (zfrom 1 n)))) as (rb & Erb & Hrb).
  { intros m Hm. apply in_map_iff in Hm as (d & <- & Hd). rewrite (Hsrc d Hd). apply filter_In in Hd as [Hd Hne]. rewrite zfrom_in in Hd.
    assert (Hd' : 1 <= d < N) by lia. cbn [peer tag len rmsg].
    assert (Eup : S_ (down r d) d = B r d) by (unfold S_; now rewrite up_down).
    split; [|cbn [len smsg]; now rewrite Eup].
    rewrite Es by now apply down_range. apply (filter_unique (smsg (down r d))).
    - apply zfrom_NoDup.
    - rewrite zfrom_in. lia.
    - unfold ne in *. now rewrite Eup.
    - cbn [peer tag smsg]. rewrite up_down by lia. rewrite !Z.eqb_refl. reflexivity.
    - intros e He _ E. rewrite zfrom_in in He. cbn [peer tag smsg] in E. apply andb_prop in E as [E _]. apply Z.eqb_eq in E.
      apply (up_inj (down r d)); [now apply down_range|lia|lia|]. rewrite E. symmetry. now apply up_down. }
  exists rb. split; [exact Erb|]. intros d k t Hd Ek.
  assert (Hk : (k < length (B r d))%nat) by (apply nth_error_Some; congruence).
  assert (Hin : In d (filter (ne (B r)) (zfrom 1 n))) by (apply filter_In; split; [rewrite zfrom_in; lia|unfold ne; lia]).
  rewrite (Hrb (rmsg d)).
  - rewrite (Hsrc d Hin). cbn [peer off rmsg smsg]. unfold sb. rewrite (setup_ok (down r d)) by now apply down_range.
    cbn [links_to_send comms_of]. assert (0 <= offB (S_ (down r d)) d) by (unfold offB; lia).
    replace (0 <=? _) with true by lia.
    replace (Z.to_nat (offB (S_ (down r d)) d + (offB (B r) d + Z.of_nat k - offB (B r) d))) with (Z.to_nat (offB (S_ (down r d)) d) + k)%nat by lia.
    rewrite (offB_nth (S_ (down r d)) n d k t); [reflexivity|lia|]. unfold S_. now rewrite up_down.
  - now apply in_map.
  - unfold covers. cbn [off len rmsg]. lia.
  - intros m' Hm' Hc. apply in_map_iff in Hm' as (e & <- & He). apply filter_In in He as [He _]. rewrite zfrom_in in He.
    unfold covers in Hc. cbn [off len rmsg] in Hc. f_equal. destruct (Z.lt_trichotomy d e) as [H|[H|H]]; [|lia|].
    + pose proof (offB_mono (B r) d e ltac:(lia)). lia.
    + pose proof (offB_mono (B r) e d ltac:(lia)). lia.
Qed.
End Exch.
