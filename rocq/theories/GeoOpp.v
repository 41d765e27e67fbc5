(** What glblxOpp returns on every rank. *)
From Verif Require Import Base GeometryModel GeometrySpec GeometryProofs OwnerProofs FullLxProofs LabelProofs GeoMiscModel GeoMiscProofs Geometry_final.

Lemma quot0 n : Z.quot 0 n = 0.
Proof. now destruct n. Qed.
Lemma rem0 n : Z.rem 0 n = 0.
Proof. now destruct n. Qed.
Lemma join_first g rc mu : valid_grid g = true -> in_box rc (nRanksDir g) -> (mu < 4)%nat ->
  (join_coords g rc (coordOfLx 0 (locSize g))).[mu] = rc.[mu] * (locSize g).[mu].
Proof.
  intros Hv Hrc Hmu. destruct (valid_grid_inv g Hv) as (n0&n1&n2&n3&l0&l1&l2&l3&Hg&Hl&_).
  assert (length rc = 4)%nat by (apply in_box_nth in Hrc as [H' _]; rewrite H', Hg; reflexivity).
  destruct (length4 rc H) as (a&b&c&d&->). unfold join_coords. rewrite Hl.
  transitivity ((map2 Z.add (map2 Z.mul [a; b; c; d] [l0; l1; l2; l3]) [0;0;0;0]).[mu]).
  - f_equal.
  - clear -Hmu. destruct mu as [|[|[|[|]]]]; [..|exfalso; clear -Hmu; lia]; cbn; ring.
Qed.

(** the difference from the first site of the rank *)
Theorem opp_main : forall g rc, valid_grid g = true -> in_box rc (nRanksDir g) -> let t := label_all_sites g rc in
  forall b, 0 <= b < locVol g -> exists gb d, glbCoordOfLoclx t b = Some gb /\ in_box d (glbSize g) /\
    (forall mu, (mu < 4)%nat -> d.[mu] = (rc.[mu] * (locSize g).[mu] - gb.[mu]) mod (glbSize g).[mu]) /\ glblxOpp g t b = Some (glblxOfCoord g d) /\
    ((forall mu, (mu < 4)%nat -> d.[mu] = (- gb.[mu]) mod (glbSize g).[mu]) <-> forall mu, (mu < 4)%nat -> rc.[mu] = 0).
Proof.
  intros g rc Hv Hrc t b Hb.
  destruct (sum_diff_main g rc Hv Hrc 0 b ltac:(lia) Hb) as (g0 & gb & s & d & E0 & Eb & _ & Bd & Hd & _ & _ & Ed & _).
  destruct (loc_true_glb g Hv rc 0 Hrc ltac:(lia)) as (H & _). rewrite H in E0. apply Some_inj in E0. subst g0.
  assert (D : forall mu, (mu < 4)%nat -> d.[mu] = (rc.[mu] * (locSize g).[mu] - gb.[mu]) mod (glbSize g).[mu]).
  { intros mu Hmu. destruct (Hd mu Hmu) as [_ ->]. now rewrite (join_first g rc mu Hv Hrc Hmu). }
  exists gb, d. split; [exact Eb|]. split; [exact Bd|]. split; [exact D|]. split; [exact Ed|]. split.
  - intros Ho mu Hmu. specialize (Ho mu Hmu). rewrite (D mu Hmu) in Ho. destruct (dir_facts g Hv mu Hmu) as (A & B & C).
    apply in_box_nth in Hrc as [Hlen Hrc]. specialize (Hrc mu). rewrite (nr_len g Hv) in Hrc. specialize (Hrc Hmu).
    set (c := rc.[mu]) in *. set (l := (locSize g).[mu]) in *. set (n := (nRanksDir g).[mu]) in *. set (G := (glbSize g).[mu]) in *. set (x := gb.[mu]) in *. clearbody c l n G x.
    assert (Hm : (c * l) mod G = 0).
    { replace (c * l) with ((c * l - x) - (- x)) by ring. rewrite Zminus_mod, Ho, Z.sub_diag. apply Z.mod_0_l. clear - A B C. nia. }
    clear - A B C Hrc Hm. assert (0 <= c * l < G) by nia. rewrite Z.mod_small in Hm by assumption. nia.
  - intros Hz mu Hmu. rewrite (D mu Hmu), (Hz mu Hmu). reflexivity.
Qed.
