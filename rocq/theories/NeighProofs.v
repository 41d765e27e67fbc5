(** Neighbour tables and index regions. *)
From Verif Require Import Base GeometryModel GeometrySpec GeometryProofs OwnerProofs FullLxProofs FullLxMain LabelProofs.

Lemma classes_nonzero k : (k < 33)%nat ->
  nonzero (nth k classes []) = if (k <? 1)%nat then O else if (k <? 9)%nat then 1%nat else 2%nat.
Proof. intros H. do 33 (destruct k as [|k]; [reflexivity|]). lia. Qed.

Section G.
Context (g : grid) (Hv : valid_grid g = true).

Lemma prefix_1 : prefix (sizes g) 1 = locVol g.
Proof. rewrite (sizes_explicit g Hv). unfold prefix, sumZ. cbn [firstn fold_right]. ring. Qed.
Lemma prefix_9 : prefix (sizes g) 9 = locVol g + bordVol g.
Proof.
  rewrite (sizes_explicit g Hv). unfold prefix, sumZ, bordVol. rewrite bordVolh_eq.
  cbn [map app firstn fold_right]. ring.
Qed.

(** the three regions *)
Lemma fullLx_region y : ext_site g y -> (n_out g y <= 2)%nat ->
  let i := fullLxOfCoords g y in
  (n_out g y = 0%nat /\ 0 <= i < locVol g) \/
  (n_out g y = 1%nat /\ locVol g <= i < locVol g + bordVol g) \/
  (n_out g y = 2%nat /\ locVol g + bordVol g <= i < locVol g + bordVol g + edgeVol g).
Proof.
  intros He Hn. cbn zeta. pose proof (fullLx_bounds g Hv y He Hn) as Hb.
  destruct (fullLx_in g Hv y He Hn) as (Hk & E & Hr).
  assert (Hin : In (flags g y) classes) by (apply in_classes; assumption).
  pose proof (index_of_nth (flags g y) classes [] Hin) as Hnth.
  pose proof (classes_nonzero _ Hk) as Hz. rewrite Hnth, <- (n_out_nonzero g Hv y He) in Hz.
  set (k := index_of (flags g y) classes) in *.
  pose proof (sizes_nonneg g Hv) as Hs. pose proof (sizes_len g) as Hsl.
  pose proof (prefix_S (sizes g) k ltac:(lia)) as HS.
  destruct (Nat.ltb_spec k 1).
  - left. split; [assumption|]. assert (k = O) by lia. rewrite <- prefix_1. subst k. rewrite H0 in *. lia.
  - pose proof (prefix_mono _ Hs 1 k ltac:(lia) ltac:(lia)) as H1. rewrite prefix_1 in H1.
    destruct (Nat.ltb_spec k 9).
    + right; left. pose proof (prefix_mono _ Hs (S k) 9 ltac:(lia) ltac:(lia)) as H9. rewrite prefix_9 in H9.
      split; [assumption|]. lia.
    + right; right. pose proof (prefix_mono _ Hs 9 k ltac:(lia) ltac:(lia)) as H9. rewrite prefix_9 in H9.
      split; [assumption|]. lia.
Qed.

Definition dsgn (up : bool) : Z := if up then 1 else -1.

(** entry of the neighbour table of a stored site *)
Lemma neigh_eq rc y mu up : in_box rc (nRanksDir g) -> ext_site g y -> (n_out g y <= 2)%nat -> (mu < 4)%nat ->
  loclxNeigh g rc (label_all_sites g rc) up (fullLxOfCoords g y) mu =
  Some (fullLxOfCoords g (move y mu (dsgn up))).
Proof.
  intros Hrc He Hn Hmu. unfold loclxNeigh.
  destruct (label_spec g Hv rc y Hrc He Hn) as (-> & _). f_equal.
  pose proof (rel_mod g Hv rc y mu (dsgn up) Hrc (proj1 He) Hmu) as R. cbn zeta in R.
  apply (fullLx_periodic g) in R.
  destruct up; exact R.
Qed.

Lemma move_ext_inside y mu d : ext_site g y -> (mu < 4)%nat -> length (move y mu d) = 4%nat.
Proof. intros [Hl _] _. unfold move. now rewrite upd_length. Qed.

Lemma move_back y mu d : length y = 4%nat -> (mu < 4)%nat -> move (move y mu d) mu (-d) = y.
Proof.
  intros Hl Hmu. unfold move. rewrite nth_upd_eq by congruence. rewrite upd_upd.
  replace (y.[mu] + d + - d) with y.[mu] by ring. apply upd_same. congruence.
Qed.

Lemma mod_move y z mu d : length y = 4%nat -> length z = 4%nat -> (mu < 4)%nat ->
  map2 Z.modulo y (glbSize g) = map2 Z.modulo z (glbSize g) ->
  map2 Z.modulo (move y mu d) (glbSize g) = map2 Z.modulo (move z mu d) (glbSize g).
Proof.
  intros Hy Hz Hmu E. pose proof (glb_len g Hv) as HG.
  assert (En : forall k, (k < 4)%nat -> y.[k] mod (glbSize g).[k] = z.[k] mod (glbSize g).[k]).
  { intros k Hk. rewrite <- (nth_map2 Z.modulo y) by assumption. rewrite E. now apply nth_map2. }
  apply list4_ext; [unfold move; len4..|].
  intros nu Hnu. unfold move. rewrite !nth_map2 by len4.
  destruct (Nat.eq_dec mu nu) as [->|Hne].
  - rewrite !nth_upd_eq by congruence. rewrite <- Zplus_mod_idemp_l, En, Zplus_mod_idemp_l by assumption. reflexivity.
  - rewrite !nth_upd_neq by assumption. now apply En.
Qed.

(** C08 *)
Lemma neigh_spec rc i mu up : in_box rc (nRanksDir g) -> 0 <= i < locVol g + bordVol g -> (mu < 4)%nat ->
  let t := label_all_sites g rc in
  exists gc j, glbCoordOfLoclx t i = Some gc /\ loclxNeigh g rc t up i mu = Some j /\
    ((j = -1 /\ locVol g <= i) \/
     (0 <= j < locVol g + bordVol g + edgeVol g /\
      glbCoordOfLoclx t j = Some (periodic_shift (glbSize g) gc mu (if up then 1 else -1)))).
Proof.
  intros Hrc Hi Hmu. cbn zeta.
  assert (He0 : 0 <= edgeVol g).
  { rewrite edgeVol_eq. pose proof (sizes_nonneg g Hv) as Hs. rewrite (sizes_explicit g Hv) in Hs.
    cbn [map app] in Hs. rewrite Forall_forall in Hs.
    assert (K : forall k, (k < 6)%nat -> 0 <= edge_dir_vol g k).
    { intros k Hk. apply Hs. do 6 (destruct k as [|k]; [cbn [In]; tauto|]). lia. }
    pose proof (K 0%nat ltac:(lia)). pose proof (K 1%nat ltac:(lia)). pose proof (K 2%nat ltac:(lia)).
    pose proof (K 3%nat ltac:(lia)). pose proof (K 4%nat ltac:(lia)). pose proof (K 5%nat ltac:(lia)). lia. }
  destruct (fullLx_onto g Hv i ltac:(lia)) as (y & Hy & Hn & Ei). subst i.
  destruct (label_spec g Hv rc y Hrc Hy Hn) as (Hg & _).
  exists (true_glb g rc y), (fullLxOfCoords g (move y mu (dsgn up))).
  split; [assumption|]. split; [now apply neigh_eq|].
  assert (Hn1 : (n_out g y <= 1)%nat) by (destruct (fullLx_region y Hy Hn) as [H|[H|H]]; lia).
  assert (Hd : dsgn up = 1 \/ dsgn up = -1) by (destruct up; auto).
  destruct (step_stored g Hv y mu (dsgn up) Hy Hn1 Hmu Hd) as [(z & Hz & Hzn & Ez)|[Hin Hm]].
  - right. rewrite (fullLx_periodic g _ z) by (symmetry; assumption).
    split; [now apply fullLx_bounds|].
    destruct (label_spec g Hv rc z Hrc Hz Hzn) as (-> & _). f_equal.
    rewrite (true_glb_mod g Hv rc z (move y mu (dsgn up))) by (auto; try apply Hz; apply move_ext_inside; auto).
    apply true_glb_move; auto. apply Hy.
  - left. split; [assumption|]. destruct (fullLx_region y Hy Hn) as [[H _]|[[H Hb]|[H Hb]]]; [|lia..].
    exfalso. rewrite (n_out_0 g Hv) in H. specialize (H mu Hmu). unfold inside in Hin. lia.
Qed.

Lemma neigh_inverse rc i mu up : in_box rc (nRanksDir g) -> 0 <= i < locVol g -> (mu < 4)%nat ->
  let t := label_all_sites g rc in
  exists j, loclxNeigh g rc t up i mu = Some j /\ 0 <= j < locVol g + bordVol g /\
    loclxNeigh g rc t (negb up) j mu = Some i.
Proof.
  intros Hrc Hi Hmu. cbn zeta.
  assert (Hb0 : 0 <= bordVol g).
  { pose proof (prefix_mono _ (sizes_nonneg g Hv) 1 9 ltac:(lia) ltac:(rewrite (sizes_len g); lia)) as H.
    rewrite prefix_1, prefix_9 in H. lia. }
  destruct (fullLx_onto g Hv i) as (y & Hy & Hn & Ei).
  { pose proof (prefix_mono _ (sizes_nonneg g Hv) 9 33 ltac:(lia) ltac:(rewrite (sizes_len g); lia)) as H.
    rewrite prefix_9 in H. change 33%nat with (length (sizes g)) in H. rewrite prefix_all, (sizes_sum g Hv) in H. lia. }
  subst i. exists (fullLxOfCoords g (move y mu (dsgn up))). split; [now apply neigh_eq|].
  assert (Hn0 : n_out g y = 0%nat) by (destruct (fullLx_region y Hy Hn) as [H|[H|H]]; lia).
  assert (Hd : dsgn up = 1 \/ dsgn up = -1) by (destruct up; auto).
  destruct (step_stored g Hv y mu (dsgn up) Hy ltac:(lia) Hmu Hd) as [(z & Hz & Hzn & Ez)|[Hin Hm]].
  2:{ exfalso. rewrite (n_out_0 g Hv) in Hn0. specialize (Hn0 mu Hmu). unfold inside in Hin. lia. }
  rewrite (fullLx_periodic g _ z) by (symmetry; assumption).
  assert (Hz1 : (n_out g z <= 1)%nat).
  { (* the move leaves at most one coordinate outside, and z has the same label *)
    assert (Hy1 : (n_out g (move y mu (dsgn up)) <= 1)%nat) by (pose proof (n_out_move_le g Hv y mu (dsgn up) (proj1 Hy) Hmu); lia).
    destruct (1 <? (nRanksDir g).[mu]) eqn:Ep.
    - assert (Hm : ext_site g (move y mu (dsgn up))).
      { apply ext_upd; [assumption..|]. rewrite Ep. rewrite (n_out_0 g Hv) in Hn0. specialize (Hn0 mu Hmu). lia. }
      assert (z = move y mu (dsgn up)); [|subst; assumption].
      apply (fullLx_inj g Hv); auto. now apply fullLx_periodic.
    - apply Z.ltb_ge in Ep. destruct (dir_facts g Hv mu Hmu) as (H2 & Hnn & HG).
      assert (En : (nRanksDir g).[mu] = 1) by lia. rewrite En, Z.mul_1_l in HG.
      set (w := upd y mu ((y.[mu] + dsgn up) mod (glbSize g).[mu])).
      pose proof (Z.mod_pos_bound (y.[mu] + dsgn up) (glbSize g).[mu] ltac:(lia)) as Hmb.
      assert (Hw : ext_site g w).
      { apply ext_upd; [assumption..|]. destruct (Z.ltb_spec 1 (nRanksDir g).[mu]); lia. }
      assert (Hwn : (n_out g w <= n_out g y)%nat) by (apply (n_out_upd_in g Hv); [apply Hy|assumption|lia]).
      assert (z = w); [|subst; lia].
      apply (fullLx_inj g Hv); auto; try lia. apply fullLx_periodic. rewrite Ez.
      apply mod_upd; [assumption|apply Hy|assumption|]. now rewrite Zmod_mod. }
  split.
  - destruct (fullLx_region z Hz ltac:(lia)) as [H|[H|H]]; lia.
  - rewrite neigh_eq by auto. f_equal. apply fullLx_periodic.
    assert (Eneg : dsgn (negb up) = - dsgn up) by (destruct up; reflexivity). rewrite Eneg.
    rewrite (mod_move z (move y mu (dsgn up))); [|apply Hz|apply move_ext_inside; auto|assumption|assumption].
    rewrite move_back; [reflexivity|apply Hy|assumption].
Qed.
End G.
