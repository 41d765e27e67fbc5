(** Even/odd geometry proofs. *)
From Verif Require Import Base GeometryModel GeometrySpec GeometryProofs OwnerProofs FullLxProofs
  FullLxMain LabelProofs NeighProofs GeoMiscModel GeoMiscProofs HaloModel HaloProofs EdgeProofs EoModel.

Definition par2 (z : Z) : Z := z mod 2.

Lemma kept_snoc f v a b : length f = length v -> kept (f ++ [a]) (v ++ [b]) = if a =? 0 then kept f v ++ [b] else kept f v.
Proof.
  revert v; induction f as [|h f IH]; intros [|w v] Hl; try discriminate; cbn [app kept].
  - destruct (a =? 0); reflexivity.
  - injection Hl as Hl. rewrite IH by assumption. destruct (h =? 0), (a =? 0); reflexivity.
Qed.

Section G.
Context (g : grid) (Hv : valid_grid g = true) (Heo : eo_grid_ok g = true).

Lemma loc_even mu : (mu < 4)%nat -> exists h, (locSize g).[mu] = 2 * h /\ 1 <= h.
Proof.
  intros Hmu. destruct (dir_facts g Hv mu Hmu) as (Hl & _).
  unfold eo_grid_ok in Heo. rewrite forallb_forall in Heo. specialize (Heo mu).
  assert (In mu dirs) as Hin by (unfold dirs; cbn; lia). specialize (Heo Hin).
  apply Z.eqb_eq in Heo. rewrite Z.rem_mod_nonneg in Heo by lia.
  exists ((locSize g).[mu] / 2). pose proof (Z.div_mod (locSize g).[mu] 2 ltac:(lia)). lia.
Qed.

Lemma sizes_even k : (k < 33)%nat -> (2 | (sizes g).[k]).
Proof.
  intros Hk. unfold sizes.
  rewrite (nth_indep _ 0 (csize g [])) by (rewrite map_length; exact Hk). rewrite map_nth. unfold csize.
  apply Z.divide_mul_r.
  destruct (loc_even 0 ltac:(lia)) as (h0 & E0 & _). destruct (loc_even 1 ltac:(lia)) as (h1 & E1 & _).
  destruct (loc_even 2 ltac:(lia)) as (h2 & E2 & _). destruct (loc_even 3 ltac:(lia)) as (h3 & E3 & _).
  destruct (length4 (locSize g) (loc_len g Hv)) as (l0&l1&l2&l3&Hl). rewrite Hl in *. cbn [nth] in E0, E1, E2, E3.
  subst l0 l1 l2 l3.
  do 33 (destruct k as [|k]; [cbn [nth classes kept Z.eqb prodZ fold_right];
    try (rewrite <- Z.mul_assoc; apply Z.divide_factor_l)|]).
  exfalso; clear -Hk; lia.
Qed.

Lemma prefix_even k : (k <= 33)%nat -> (2 | prefix (sizes g) k).
Proof.
  induction k as [|k IH]; intros Hk.
  - exists 0. reflexivity.
  - rewrite prefix_S by (rewrite (sizes_len g); lia). apply Z.divide_add_r; [apply IH; lia|].
    apply sizes_even. lia.
Qed.

Definition psum (y : list Z) : Z := par2 (sumZ y).

(** consecutive labels 2j, 2j+1 are adjacent sites *)
Lemma adjacent y : ext_site g y -> (n_out g y <= 2)%nat -> (fullLxOfCoords g y) mod 2 = 0 ->
  exists m, (m < 4)%nat /\ ext_site g (move y m 1) /\ n_out g (move y m 1) = n_out g y /\
    fullLxOfCoords g (move y m 1) = fullLxOfCoords g y + 1.
Proof.
  intros He Hn Hev.
  destruct (fullLx_in g Hv y He Hn) as (Hk & E & B). set (k := index_of _ _) in *.
  destruct (prefix_even k ltac:(lia)) as (pe & Hpe).
  (* the last direction inside *)
  assert (Hm : exists m, (m < 4)%nat /\ (flags g y).[m] = 0 /\ forall n, (m < n < 4)%nat -> (flags g y).[n] <> 0).
  { assert (Hin : In (flags g y) classes) by (apply (in_classes g Hv y He); exact Hn).
    clear -Hin. revert Hin. generalize (flags g y) as f. intros f Hin.
    destruct (Z.eq_dec f.[3] 0) as [H3|H3]; [exists 3%nat; repeat split; auto; lia|].
    destruct (Z.eq_dec f.[2] 0) as [H2|H2].
    { exists 2%nat. repeat split; auto. intros n Hnn. assert (n = 3%nat) as -> by lia. assumption. }
    destruct (Z.eq_dec f.[1] 0) as [H1|H1].
    { exists 1%nat. repeat split; auto. intros n Hnn. assert (n = 3%nat \/ n = 2%nat) as [-> | ->] by lia; assumption. }
    exfalso. unfold classes in Hin. cbn [In] in Hin.
    repeat (destruct Hin as [<- | Hin]; [cbn [nth] in *; congruence|]). exact Hin. }
  destruct Hm as (m & Hm & Fm & Fn). exists m. split; [exact Hm|].
  destruct (loc_even m Hm) as (h & Eh & Hh).
  pose proof (proj1 He) as Hl.
  (* the class and the row-major index *)
  assert (K : exists fi yi li, kept (flags g y) y = yi ++ [y.[m]] /\ kept (flags g y) (locSize g) = li ++ [(locSize g).[m]] /\
     length yi = length li /\ (forall v, kept (flags g y) (upd y m v) = yi ++ [v]) /\ fi = 0).
  { destruct (length4 y Hl) as (y0&y1&y2&y3&->). 
    destruct (length4 (locSize g) (loc_len g Hv)) as (l0&l1&l2&l3&El). rewrite El.
    destruct (length4 (flags g [y0;y1;y2;y3]) (flags_length g Hv _ Hl)) as (f0&f1&f2&f3&Ef). rewrite Ef in *.
    clear -Hm Fm Fn. exists 0.
    assert (KL : forall f a b, length a = length b -> length (kept f a) = length (kept f b)).
    { clear. induction f as [|h f IH]; intros [|a a'] [|b b'] H; try discriminate; try reflexivity.
      cbn [kept]. injection H as H. specialize (IH a' b' H). destruct (h =? 0); cbn [length]; auto. }
    destruct m as [|[|[|[|]]]]; try (exfalso; clear -Hm; lia); cbn [nth upd] in *.
    - exists [], []. subst f0. assert (f1 <> 0) by (apply (Fn 1%nat); lia). assert (f2 <> 0) by (apply (Fn 2%nat); lia).
      assert (f3 <> 0) by (apply (Fn 3%nat); lia). cbn [kept Z.eqb].
      destruct (Z.eqb_spec f1 0); [contradiction|]. destruct (Z.eqb_spec f2 0); [contradiction|]. destruct (Z.eqb_spec f3 0); [contradiction|].
      repeat split; reflexivity.
    - exists (kept [f0] [y0]), (kept [f0] [l0]). subst f1. assert (f2 <> 0) by (apply (Fn 2%nat); lia).
      assert (f3 <> 0) by (apply (Fn 3%nat); lia). cbn [kept Z.eqb].
      destruct (Z.eqb_spec f2 0); [contradiction|]. destruct (Z.eqb_spec f3 0); [contradiction|].
      destruct (f0 =? 0); repeat split; reflexivity.
    - exists (kept [f0;f1] [y0;y1]), (kept [f0;f1] [l0;l1]). subst f2.
      assert (f3 <> 0) by (apply (Fn 3%nat); lia). cbn [kept Z.eqb].
      destruct (Z.eqb_spec f3 0); [contradiction|].
      destruct (f0 =? 0), (f1 =? 0); repeat split; reflexivity.
    - exists (kept [f0;f1;f2] [y0;y1;y2]), (kept [f0;f1;f2] [l0;l1;l2]). subst f3. cbn [kept Z.eqb].
      destruct (f0 =? 0), (f1 =? 0), (f2 =? 0); repeat split; reflexivity. }
  destruct K as (_ & yi & li & K1 & K2 & K3 & K4 & _).
  rewrite K1, K2, row_major_snoc in E, B by assumption.
  assert (Hym : 0 <= y.[m] < (locSize g).[m]).
  { pose proof (kept_box g Hv y He) as Hkb. rewrite K1, K2 in Hkb. apply in_box_snoc in Hkb as [_ H]. exact H. }
  assert (Hpar : exists c, y.[m] = 2 * c).
  { rewrite E, Hpe, Eh in Hev. exists (y.[m] / 2).
    replace (pe * 2 + (row_major yi li * (2 * h) + y.[m])) with (y.[m] + (pe + row_major yi li * h) * 2) in Hev by ring.
    rewrite Z.mod_add in Hev by lia. pose proof (Z.div_mod y.[m] 2 ltac:(lia)). lia. }
  destruct Hpar as (c & Hc).
  assert (Hym1 : 0 <= y.[m] + 1 < (locSize g).[m]) by lia.
  assert (He' : ext_site g (move y m 1)).
  { apply (ext_upd g); auto. destruct (1 <? _); lia. }
  assert (Hin : inside g y m = true) by (unfold inside; lia).
  assert (Hn' : n_out g (move y m 1) = n_out g y).
  { pose proof (n_out_upd g y m (y.[m] + 1) Hl Hm) as En. rewrite Hin in En.
    replace ((0 <=? y.[m] + 1) && (y.[m] + 1 <? (locSize g).[m])) with true in En by (symmetry; clear -Hym1; lia).
    unfold move. clear -En. cbn [negb Nat.b2n] in En. lia. }
  split; [exact He'|]. split; [exact Hn'|].
  assert (Ef : flags g (move y m 1) = flags g y).
  { apply list4_ext; try (apply (flags_length g Hv); [assumption || apply He']); try apply He'.
    intros n Hnn. rewrite !(flags_nth g Hv) by (try apply He'; assumption).
    unfold move. destruct (Nat.eq_dec m n) as [<-|Hne]; [|now rewrite nth_upd_neq].
    rewrite nth_upd_eq by congruence. unfold flag1. 
    destruct (Z.eqb_spec (y.[m] + 1) (-1)); [lia|]. destruct (Z.eqb_spec y.[m] (-1)); [lia|].
    destruct (Z.eqb_spec (y.[m] + 1) (locSize g).[m]); [lia|]. destruct (Z.eqb_spec y.[m] (locSize g).[m]); [lia|]. reflexivity. }
  destruct (fullLx_in g Hv (move y m 1) He' ltac:(lia)) as (_ & E' & _).
  rewrite Ef in E'. fold k in E'. unfold move in E'. rewrite K4, K2, row_major_snoc in E' by assumption.
  unfold move. rewrite E', E. ring.
Qed.

(** the parity of the global coordinates is that of the displacement *)
Lemma parity_true rc y : in_box rc (nRanksDir g) -> length y = 4%nat -> glb_coord_parity (true_glb g rc y) = psum y.
Proof.
  intros Hrc Hl. unfold glb_coord_parity, psum, par2.
  pose proof (true_glb_box g Hv rc y Hrc Hl) as Hb.
  pose proof (true_glb_nth g Hv rc y) as Hnth.
  destruct (length4 _ (true_glb_length g Hv rc y Hrc Hl)) as (a&b&c&d&E).
  pose proof (Hnth 0%nat Hrc Hl ltac:(lia)) as N0. pose proof (Hnth 1%nat Hrc Hl ltac:(lia)) as N1.
  pose proof (Hnth 2%nat Hrc Hl ltac:(lia)) as N2. pose proof (Hnth 3%nat Hrc Hl ltac:(lia)) as N3.
  rewrite E in *. cbn [nth] in N0, N1, N2, N3. clear Hnth.
  assert (Hpos : 0 <= a /\ 0 <= b /\ 0 <= c /\ 0 <= d).
  { apply in_box_nth in Hb as [Hb1 Hb2]. rewrite (glb_len g Hv) in Hb2.
    pose proof (Hb2 0%nat ltac:(lia)). pose proof (Hb2 1%nat ltac:(lia)). pose proof (Hb2 2%nat ltac:(lia)). pose proof (Hb2 3%nat ltac:(lia)).
    cbn [nth] in *. lia. }
  cbn [fold_left]. rewrite Z.rem_mod_nonneg by lia.
  assert (K : forall m, (m < 4)%nat -> exists q, (rc.[m] * (locSize g).[m] + y.[m]) mod (glbSize g).[m] = y.[m] + 2 * q).
  { clear N0 N1 N2 N3 E Hb. intros m Hm. destruct (loc_even m Hm) as (h & Eh & Hh). destruct (dir_facts g Hv m Hm) as (_ & Hn & HG).
    rewrite HG, Eh. generalize dependent (nRanksDir g).[m]. intros n Hn _. clear Eh. set (z := rc.[m] * (2 * h) + y.[m]). 
    exists (rc.[m] * h - n * h * (z / (n * (2 * h)))).
    pose proof (Z.div_mod z (n * (2 * h)) ltac:(clear -Hn Hh; nia)) as D.
    assert (E1 : z mod (n * (2 * h)) = z - n * (2 * h) * (z / (n * (2 * h)))) by (clear -D; lia).
    rewrite E1. unfold z at 1. ring. }
  destruct (K 0%nat ltac:(lia)) as (q0 & Q0). destruct (K 1%nat ltac:(lia)) as (q1 & Q1).
  destruct (K 2%nat ltac:(lia)) as (q2 & Q2). destruct (K 3%nat ltac:(lia)) as (q3 & Q3).
  rewrite N0, N1, N2, N3, Q0, Q1, Q2, Q3.
  destruct (length4 y Hl) as (y0&y1&y2&y3&->). cbn [nth]. unfold sumZ. cbn [fold_right]. clear.
  replace (0 + (y0 + 2 * q0) + (y1 + 2 * q1) + (y2 + 2 * q2) + (y3 + 2 * q3)) with
    (y0 + (y1 + (y2 + (y3 + 0))) + (q0 + q1 + q2 + q3) * 2) by ring.
  now rewrite Z.mod_add by lia.
Qed.

Lemma psum_move y m d : length y = 4%nat -> (m < 4)%nat -> (d = 1 \/ d = -1) -> psum (move y m d) = 1 - psum y.
Proof.
  intros Hl Hm Hd. assert (E : sumZ (move y m d) = sumZ y + d).
  { unfold move. destruct (length4 y Hl) as (y0&y1&y2&y3&->).
    destruct m as [|[|[|[|]]]]; [| | | |exfalso; clear -Hm; lia]; cbn [upd nth sumZ fold_right]; ring. }
  unfold psum, par2. rewrite E. clear -Hd. 
  pose proof (Z.mod_pos_bound (sumZ y) 2 ltac:(lia)). pose proof (Z.div_mod (sumZ y) 2 ltac:(lia)).
  destruct (Z.eq_dec (sumZ y mod 2) 0) as [E0|E0].
  - rewrite E0. destruct Hd as [-> | ->].
    + symmetry. apply Z.mod_unique with (sumZ y / 2); lia.
    + symmetry. apply Z.mod_unique with (sumZ y / 2 - 1); lia.
  - assert (sumZ y mod 2 = 1) as E1 by lia. rewrite E1. destruct Hd as [-> | ->].
    + symmetry. apply Z.mod_unique with (sumZ y / 2 + 1); lia.
    + symmetry. apply Z.mod_unique with (sumZ y / 2); lia.
Qed.

Definition totVol : Z := locVol g + bordVol g + edgeVol g.

Definition site_par (rc : list Z) (i : Z) : Z :=
  match glbCoordOfLoclx (label_all_sites g rc) i with Some gc => glb_coord_parity gc | None => 0 end.

Lemma site_par_full rc y : in_box rc (nRanksDir g) -> ext_site g y -> (n_out g y <= 2)%nat ->
  glbCoordOfLoclx (label_all_sites g rc) (fullLxOfCoords g y) = Some (true_glb g rc y) /\
  site_par rc (fullLxOfCoords g y) = psum y.
Proof.
  intros Hrc He Hn. destruct (label_spec g Hv rc y Hrc He Hn) as (E & _).
  split; [exact E|]. unfold site_par. rewrite E. apply parity_true; [assumption|apply He].
Qed.

Lemma psum_01 y : psum y = 0 \/ psum y = 1.
Proof. unfold psum, par2. pose proof (Z.mod_pos_bound (sumZ y) 2 ltac:(lia)). lia. Qed.

Lemma site_par_01 rc i : in_box rc (nRanksDir g) -> 0 <= i < totVol -> site_par rc i = 0 \/ site_par rc i = 1.
Proof.
  intros Hrc Hi. destruct (fullLx_onto g Hv i Hi) as (y & He & Hn & <-).
  destruct (site_par_full rc y Hrc He Hn) as [_ ->]. apply psum_01.
Qed.

Lemma site_par_pair rc j : in_box rc (nRanksDir g) -> 0 <= 2 * j -> 2 * j + 1 < totVol ->
  site_par rc (2 * j + 1) = 1 - site_par rc (2 * j).
Proof.
  intros Hrc H0 H1. destruct (fullLx_onto g Hv (2 * j) ltac:(unfold totVol in H1; lia)) as (y & He & Hn & E).
  destruct (adjacent y He Hn) as (m & Hm & He' & Hn' & E').
  { rewrite E. rewrite Z.mul_comm. apply Z.mod_mul. lia. }
  rewrite <- E, <- E'. destruct (site_par_full rc y Hrc He Hn) as [_ ->].
  destruct (site_par_full rc (move y m 1) Hrc He' ltac:(lia)) as [_ ->].
  apply psum_move; auto. apply He.
Qed.

Lemma totVol_even : exists h, totVol = 2 * h.
Proof.
  destruct (prefix_even 33 ltac:(lia)) as (h & E). exists h. unfold totVol.
  rewrite <- (sizes_sum g Hv), <- prefix_all, (sizes_len g), E. ring.
Qed.
Lemma locVol_even : exists h, locVol g = 2 * h.
Proof. destruct (prefix_even 1 ltac:(lia)) as (h & E). exists h. rewrite <- (prefix_1 g Hv), E. ring. Qed.
Lemma locbord_even : exists h, locVol g + bordVol g = 2 * h.
Proof. destruct (prefix_even 9 ltac:(lia)) as (h & E). exists h. rewrite <- (prefix_9 g Hv), E. ring. Qed.

(** state of the labelling loop *)
Lemma eo_loop rc : in_box rc (nRanksDir g) -> forall n, 0 <= n -> n <= totVol ->
  let s := fold_left (eo_label (label_all_sites g rc)) (seqZ n) eo_empty in
  (forall p, p = 0 \/ p = 1 -> iloc_eo s p = n / 2 + (if (n mod 2 =? 1) && (site_par rc (n - 1) =? p) then 1 else 0)) /\
  (forall i, 0 <= i < n -> loclx_parity s i = Some (site_par rc i) /\ loceo_of_loclx s i = Some (i / 2)) /\
  (forall p e i, loclx_of_loceo s p e = Some i <-> 0 <= i < n /\ site_par rc i = p /\ e = i / 2).
Proof.
  intros Hrc n Hn. pattern n. apply natlike_ind; [| |exact Hn]; clear n Hn.
  - intros _. cbn zeta. rewrite seqZ_0 by lia. cbn [fold_left]. split; [|split].
    + intros p _. reflexivity.
    + intros i Hi. lia.
    + intros p e i. split; [discriminate|]. intros ((H & H') & _). lia.
  - intros n Hn IH Hle. specialize (IH ltac:(lia)). cbn zeta in *.
    replace (Z.succ n) with (n + 1) by lia. rewrite seqZ_succ, fold_left_app by assumption. cbn [fold_left].
    set (s := fold_left _ (seqZ n) eo_empty) in *. destruct IH as (I1 & I2 & I3).
    destruct (fullLx_onto g Hv n ltac:(unfold totVol in Hle; lia)) as (y & He & Hno & Ey).
    destruct (site_par_full rc y Hrc He Hno) as [G1 G2]. rewrite Ey in G1, G2.
    unfold eo_label. rewrite G1. 
    assert (Gp : glb_coord_parity (true_glb g rc y) = site_par rc n) by (unfold site_par; now rewrite G1).
    rewrite Gp.
    pose proof (site_par_01 rc n Hrc ltac:(lia)) as Hp01. 
    set (q := site_par rc n) in *.
    assert (Hcnt : iloc_eo s q = n / 2).
    { rewrite (I1 q Hp01). destruct (Z.eqb_spec (n mod 2) 1) as [Eo|Eo]; cbn [andb]; [|lia].
      assert (n = 2 * (n / 2) + 1) as En by (pose proof (Z.div_mod n 2 ltac:(lia)); lia).
      pose proof (site_par_pair rc (n / 2) Hrc ltac:(lia) ltac:(lia)) as Hpp. rewrite <- En in Hpp. fold q in Hpp.
      replace (n - 1) with (2 * (n / 2)) by lia.
      destruct (Z.eqb_spec (site_par rc (2 * (n / 2))) q); lia. }
    cbn [iloc_eo loclx_parity loceo_of_loclx loclx_of_loceo]. rewrite Hcnt.
    assert (Hm2 : n mod 2 = 0 \/ n mod 2 = 1) by (pose proof (Z.mod_pos_bound n 2 ltac:(lia)); lia).
    assert (Hd : n = 2 * (n / 2) + n mod 2) by (apply Z.div_mod; lia).
    split; [|split].
    + intros p Hp. replace (n + 1 - 1) with n by ring. fold q.
      destruct Hm2 as [E0|E1].
      * assert ((n + 1) / 2 = n / 2) as -> by (symmetry; apply Z.div_unique with 1; lia).
        assert ((n + 1) mod 2 = 1) as -> by (symmetry; apply Z.mod_unique with (n / 2); lia).
        cbn [Z.eqb Pos.eqb andb]. rewrite (Z.eqb_sym q p). destruct (p =? q); [lia|].
        rewrite (I1 p Hp), E0. cbn [Z.eqb andb]. lia.
      * assert ((n + 1) / 2 = n / 2 + 1) as -> by (symmetry; apply Z.div_unique with 0; lia).
        assert ((n + 1) mod 2 = 0) as -> by (symmetry; apply Z.mod_unique with (n / 2 + 1); lia).
        cbn [Z.eqb andb]. destruct (Z.eqb_spec p q) as [->|Hne]; [lia|].
        rewrite (I1 p Hp), E1. cbn [Z.eqb Pos.eqb andb].
        pose proof (site_par_pair rc (n / 2) Hrc ltac:(lia) ltac:(lia)) as Hpp.
        replace (2 * (n / 2) + 1) with n in Hpp by lia. fold q in Hpp.
        replace (n - 1) with (2 * (n / 2)) by lia.
        destruct (Z.eqb_spec (site_par rc (2 * (n / 2))) p); lia.
    + intros i Hi. destruct (Z.eq_dec i n) as [->|Hne].
      * rewrite !tset_eq. auto.
      * rewrite !tset_neq by assumption. apply I2. lia.
    + intros p e i. destruct (Z.eqb_spec p q) as [->|Hne].
      * destruct (Z.eq_dec e (n / 2)) as [->|He2].
        -- rewrite tset_eq. split.
           ++ intros [= <-]. repeat split; auto; lia.
           ++ intros ((Hi0 & Hi1) & Hi2 & Hi3). f_equal.
              destruct (Z.eq_dec i n) as [->|Hin]; [reflexivity|]. exfalso.
              assert (i / 2 = n / 2) as Hh by lia.
              pose proof (Z.div_mod i 2 ltac:(lia)) as Di. pose proof (Z.mod_pos_bound i 2 ltac:(lia)) as Bi.
              assert (i = 2 * (n / 2) /\ n = 2 * (n / 2) + 1) as [E1 E2] by lia.
              pose proof (site_par_pair rc (n / 2) Hrc ltac:(lia) ltac:(lia)) as Hpp.
              rewrite <- E2, <- E1 in Hpp. fold q in Hpp. lia.
        -- rewrite tset_neq by assumption. rewrite I3. split.
           ++ intros ((Hi0 & Hi1) & Hi2 & Hi3). repeat split; auto; lia.
           ++ intros ((Hi0 & Hi1) & Hi2 & Hi3). repeat split; auto.
              destruct (Z.eq_dec i n) as [->|Hin]; [contradiction|lia].
      * rewrite I3. split.
        -- intros ((Hi0 & Hi1) & Hi2 & Hi3). repeat split; auto; lia.
        -- intros ((Hi0 & Hi1) & Hi2 & Hi3). repeat split; auto.
           destruct (Z.eq_dec i n) as [->|Hin]; [|lia]. exfalso. apply Hne. unfold q. auto.
Qed.

Lemma eo_tables_spec rc : in_box rc (nRanksDir g) ->
  let e := set_eo_geometry g (label_all_sites g rc) in
  (forall i, 0 <= i < totVol -> loclx_parity e i = Some (site_par rc i) /\ loceo_of_loclx e i = Some (i / 2)) /\
  (forall p k i, loclx_of_loceo e p k = Some i <-> 0 <= i < totVol /\ site_par rc i = p /\ k = i / 2).
Proof.
  intros Hrc e. pose proof (vols_nonneg g Hv) as (V0 & V1 & V2).
  destruct (eo_loop rc Hrc totVol ltac:(unfold totVol; lia) ltac:(lia)) as (_ & H2 & H3). split; assumption.
Qed.

(** each pair (parity, e/o index) is a site *)
Lemma eo_onto rc p k : in_box rc (nRanksDir g) -> (p = 0 \/ p = 1) -> 0 <= k -> 2 * k < totVol ->
  exists i, 0 <= i < totVol /\ i / 2 = k /\ site_par rc i = p.
Proof.
  intros Hrc Hp Hk Ht. destruct totVol_even as (h & Eh).
  pose proof (site_par_pair rc k Hrc ltac:(lia) ltac:(lia)) as Hpp.
  pose proof (site_par_01 rc (2 * k) Hrc ltac:(lia)) as H01.
  destruct (Z.eq_dec (site_par rc (2 * k)) p) as [E|E].
  - exists (2 * k). repeat split; auto; lia.
  - exists (2 * k + 1). repeat split; lia.
Qed.
End G.
