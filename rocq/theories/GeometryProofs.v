(** Proofs about box indexing, global indices, site ownership and global movements. *)
From Verif Require Import Base GeometryModel GeometrySpec.


Lemma volOfLx_prodZ s : volOfLx s = prodZ s.
Proof.
  unfold volOfLx.
  assert (H : forall a, fold_left Z.mul s a = a * prodZ s).
  { induction s as [|n s IH]; intros a; cbn [fold_left].
    - unfold prodZ; cbn; ring.
    - rewrite IH, prodZ_cons; ring. }
  rewrite H; ring.
Qed.

Lemma lx_acc x s : length x = length s -> forall a,
  fold_left (fun ilx p => ilx * snd p + fst p) (combine x s) a = a * prodZ s + row_major x s.
Proof.
  revert s; induction x as [|c x IH]; intros [|n s] Hl; try discriminate; intros a; cbn [combine fold_left row_major].
  - unfold prodZ; cbn; ring.
  - rewrite IH by (injection Hl; auto). cbn [fst snd]. rewrite prodZ_cons. ring.
Qed.

Lemma lxOfCoord_row_major x s : length x = length s -> lxOfCoord x s = row_major x s.
Proof. intros H; unfold lxOfCoord; rewrite lx_acc by assumption; ring. Qed.

Lemma in_box_length x s : in_box x s -> length x = length s.
Proof. induction 1; cbn; auto. Qed.

Lemma in_box_pos x s : in_box x s -> Forall (fun n => 0 < n) s.
Proof. induction 1; constructor; auto; lia. Qed.

Lemma row_major_bounds x s : in_box x s -> 0 <= row_major x s < prodZ s.
Proof.
  induction 1 as [|c n x s Hc Hr IH]; [cbn; lia|].
  cbn [row_major]. rewrite prodZ_cons. nia.
Qed.

Lemma lxOfCoord_bounds x s : in_box x s -> 0 <= lxOfCoord x s < prodZ s.
Proof.
  intros H. rewrite lxOfCoord_row_major by now apply in_box_length.
  now apply row_major_bounds.
Qed.

Lemma row_major_snoc x s c n : length x = length s ->
  row_major (x ++ [c]) (s ++ [n]) = row_major x s * n + c.
Proof.
  revert s; induction x as [|d x IH]; intros [|m s] Hl; try discriminate; cbn [app row_major].
  - unfold prodZ; cbn; ring.
  - rewrite IH by (injection Hl; auto). rewrite prodZ_app. unfold prodZ at 2; cbn [fold_right]. ring.
Qed.

Lemma in_box_snoc x s c n : in_box (x ++ [c]) (s ++ [n]) <-> in_box x s /\ 0 <= c < n.
Proof.
  split.
  - revert s; induction x as [|d x IH]; intros [|m s] H; cbn [app] in H.
    + inversion H; subst. split; [constructor|]. assumption.
    + inversion H as [|? ? ? ? ? Hr]; subst. inversion Hr as [|? ? ? ? ? Hr2 Ha Hb]. exfalso. destruct s; discriminate.
    + inversion H as [|? ? ? ? ? Hr]; subst. inversion Hr. exfalso. destruct x; discriminate.
    + inversion H as [|? ? ? ? ? Hr]; subst. apply IH in Hr as [Hx Hc]. split; [constructor|]; assumption.
  - intros [H Hc]. apply Forall2_app; [exact H|]. constructor; [exact Hc|constructor].
Qed.

Lemma coordOfLx_rev_length i r : length (coordOfLx_rev i r) = length r.
Proof. revert i; induction r as [|n r IH]; intros i; cbn; auto. Qed.

Lemma coordOfLx_length i s : length (coordOfLx i s) = length s.
Proof. unfold coordOfLx. now rewrite rev_length, coordOfLx_rev_length, rev_length. Qed.

Lemma coordOfLx_snoc i s n : coordOfLx i (s ++ [n]) = coordOfLx (Z.quot i n) s ++ [Z.rem i n].
Proof. unfold coordOfLx. rewrite rev_app_distr. reflexivity. Qed.

Lemma coordOfLx_spec s : Forall (fun n => 0 < n) s -> forall i, 0 <= i < prodZ s ->
  in_box (coordOfLx i s) s /\ row_major (coordOfLx i s) s = i.
Proof.
  induction s as [|n s IH] using rev_ind; intros Hp i Hi.
  - cbn in *. split; [constructor|lia].
  - apply Forall_app in Hp as [Hs Hn]. inversion Hn as [|? ? Hn' _]; subst.
    rewrite prodZ_app in Hi. unfold prodZ in Hi at 2; cbn [fold_right] in Hi.
    rewrite coordOfLx_snoc.
    assert (Hq : 0 <= Z.quot i n < prodZ s).
    { rewrite Z.quot_div_nonneg by lia. split; [apply Z.div_pos; lia|].
      apply Z.div_lt_upper_bound; lia. }
    destruct (IH Hs _ Hq) as [Hb Hr]. split.
    + apply in_box_snoc. split; [exact Hb|]. rewrite Z.rem_mod_nonneg by lia. apply Z.mod_pos_bound; lia.
    + rewrite row_major_snoc by apply coordOfLx_length. rewrite Hr.
      rewrite (Z.mul_comm _ n). symmetry. apply Z.quot_rem'.
Qed.

Lemma row_major_inj s x y : in_box x s -> in_box y s -> row_major x s = row_major y s -> x = y.
Proof.
  intros Hx. revert y. induction Hx as [|c n x s Hc Hr IH]; intros y Hy; inversion Hy as [|d m y' s' Hd Hy']; subst; intros H; [reflexivity|].
  cbn [row_major] in H.
  pose proof (row_major_bounds _ _ Hr). pose proof (row_major_bounds _ _ Hy').
  assert (c = d) by nia. subst d. f_equal. apply IH; [assumption|lia].
Qed.

Lemma lxOfCoord_inj s x y : in_box x s -> in_box y s -> lxOfCoord x s = lxOfCoord y s -> x = y.
Proof.
  intros Hx Hy. rewrite !lxOfCoord_row_major by now apply in_box_length.
  now apply row_major_inj.
Qed.

Lemma coordOfLx_lxOfCoord x s : in_box x s -> coordOfLx (lxOfCoord x s) s = x.
Proof.
  intros H. pose proof (lxOfCoord_bounds _ _ H) as Hb.
  destruct (coordOfLx_spec s (in_box_pos _ _ H) _ Hb) as [Hx He].
  apply (row_major_inj s); [assumption..|]. rewrite He. apply lxOfCoord_row_major. now apply in_box_length.
Qed.

Lemma lxOfCoord_coordOfLx i s : Forall (fun n => 0 < n) s -> 0 <= i < prodZ s ->
  lxOfCoord (coordOfLx i s) s = i.
Proof.
  intros Hp Hi. destruct (coordOfLx_spec s Hp i Hi) as [Hx He].
  rewrite lxOfCoord_row_major; [exact He|]. apply coordOfLx_length.
Qed.

Lemma coordOfLx_in_box i s : Forall (fun n => 0 < n) s -> 0 <= i < prodZ s -> in_box (coordOfLx i s) s.
Proof. intros Hp Hi. apply (coordOfLx_spec s Hp i Hi). Qed.

(** *** global index decoding *)

Lemma glbCoordOfGlblx_rev_small r : Forall (fun n => 0 < n) r -> forall gx,
  0 <= gx -> gx <= int_max -> Forall (fun n => n <= int_max) r ->
  glbCoordOfGlblx_rev gx r = Some (coordOfLx_rev gx r).
Proof.
  unfold int_max in *.
  induction r as [|n r IH]; intros Hp gx H0 H1 Hm; [reflexivity|].
  inversion Hp as [|? ? Hn Hp']; subst. inversion Hm as [|? ? Hnm Hm']; subst.
  cbn [glbCoordOfGlblx_rev coordOfLx_rev].
  pose proof (Z.quot_rem' gx n) as Hqr.
  assert (Hq : 0 <= Z.quot gx n <= gx).
  { split; [apply Z.quot_pos; lia|]. rewrite Z.quot_div_nonneg by lia. apply Z.div_le_upper_bound; nia. }
  assert (Hr : 0 <= Z.rem gx n < n) by (apply Z.rem_bound_pos; lia).
  rewrite wrap32_id by (unfold in_int, int_min, int_max; lia).
  assert (Hp2 : Z.quot gx n * n = gx - Z.rem gx n) by (clear - Hqr; lia).
  assert (Hp3 : 0 <= Z.quot gx n * n) by (apply Z.mul_nonneg_nonneg; lia).
  rewrite Hp2 in *. pose proof IH as Hih. clear IH Hqr Hp2.
  replace (in_int (gx - Z.rem gx n)) with true
    by (unfold in_int, int_min, int_max; symmetry; apply andb_true_intro; split; apply Z.leb_le; lia).
  rewrite Hih by (auto; lia).
  replace (gx - (gx - Z.rem gx n)) with (Z.rem gx n) by ring.
  rewrite wrap32_id by (unfold in_int, int_min, int_max; lia). reflexivity.
Qed.

Lemma glbCoordOfGlblx_small g gx : Forall (fun n => 0 < n <= int_max) (glbSize g) ->
  0 <= gx <= int_max -> glbCoordOfGlblx g gx = Some (coordOfLx gx (glbSize g)).
Proof.
  intros Hp Hg. unfold glbCoordOfGlblx. rewrite glbCoordOfGlblx_rev_small; [reflexivity|..]; try lia.
  - apply Forall_rev. eapply Forall_impl; [|exact Hp]. cbn; lia.
  - apply Forall_rev. eapply Forall_impl; [|exact Hp]. cbn; lia.
Qed.

(** decoding an index with quotient*side beyond int range is undefined *)
Lemma glbCoordOfGlblx_ub g gx s n : glbSize g = s ++ [n] -> 0 < n -> 0 <= gx ->
  int_max < gx - Z.rem gx n -> Z.quot gx n <= int_max -> glbCoordOfGlblx g gx = None.
Proof.
  intros Hs Hn Hg0 Hg Hq. unfold glbCoordOfGlblx. rewrite Hs, rev_app_distr. cbn [rev app glbCoordOfGlblx_rev].
  unfold int_max in *.
  pose proof (Z.quot_rem' gx n) as Hqr.
  assert (0 <= Z.quot gx n) by (apply Z.quot_pos; lia).
  rewrite wrap32_id by (unfold in_int, int_min, int_max; lia).
  replace (in_int (Z.quot gx n * n)) with false; [reflexivity|].
  replace (Z.quot gx n * n) with (gx - Z.rem gx n) by lia.
  unfold in_int, int_min, int_max. symmetry. apply andb_false_intro2. apply Z.leb_gt. exact Hg.
Qed.
