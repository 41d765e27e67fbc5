(** The labelling of extended sites is a bijection. *)
From Verif Require Import Base GeometryModel GeometrySpec GeometryProofs OwnerProofs FullLxProofs.

(** rebuild a site from its class and the coordinates inside *)
Fixpoint fill (f l v : list Z) : list Z :=
  match f, l with
  | a :: f', n :: l' =>
      if a =? 0 then match v with h :: v' => h :: fill f' l' v' | [] => 0 :: fill f' l' [] end
      else (if a =? -1 then -1 else n) :: fill f' l' v
  | _, _ => []
  end.

Lemma fill_kept l y : length l = length y -> fill (map2 flag1 l y) l (kept (map2 flag1 l y) y) = y.
Proof.
  revert y; induction l as [|n l IH]; intros [|c y] Hl; try discriminate; [reflexivity|].
  cbn [map2 kept fill]. destruct (flag1 n c =? 0) eqn:E.
  - f_equal. apply IH. now injection Hl.
  - f_equal; [|apply IH; now injection Hl].
    unfold flag1 in *. destruct (Z.eqb_spec c (-1)); [subst; reflexivity|].
    destruct (Z.eqb_spec c n); [subst; reflexivity|]. discriminate.
Qed.

Definition okflag (a : Z) : Prop := a = -1 \/ a = 0 \/ a = 1.

Lemma flags_fill f l v : Forall okflag f -> Forall (fun n => 0 < n) l -> length f = length l ->
  in_box v (kept f l) -> map2 flag1 l (fill f l v) = f /\ kept f (fill f l v) = v.
Proof.
  intros Hf. revert l v. induction Hf as [|a f Ha Hf IH]; intros [|n l] v Hl Hlen Hv; try discriminate.
  - cbn in *. inversion Hv. auto.
  - inversion Hl as [|? ? Hn Hl']; subst. cbn [kept] in Hv. cbn [fill].
    injection Hlen as Hlen.
    destruct (Z.eqb_spec a 0) as [->|Hne].
    + inversion Hv as [|c ? v' ? Hc Hv']; subst. cbn [map2 kept]. cbn [Z.eqb].
      destruct (IH l v' Hl' Hlen Hv') as [E1 E2]. rewrite E1, E2. split; [|reflexivity].
      f_equal. unfold flag1. destruct (Z.eqb_spec c (-1)); [lia|]. destruct (Z.eqb_spec c n); [lia|reflexivity].
    + destruct (IH l v Hl' Hlen Hv) as [E1 E2]. cbn [map2 kept].
      destruct (Z.eqb_spec a 0); [lia|]. rewrite E1, E2. split; [|reflexivity]. f_equal.
      unfold flag1. destruct Ha as [-> | [-> | ->]]; cbn [Z.eqb Pos.eqb]; [reflexivity|lia|].
      destruct (Z.eqb_spec n (-1)); [lia|]. now rewrite Z.eqb_refl.
Qed.

Lemma flag1_ok l c : okflag (flag1 l c).
Proof. unfold okflag, flag1. destruct (c =? -1); auto. destruct (c =? l); auto. Qed.

Definition nonzero (f : list Z) : nat := length (filter (fun a => negb (a =? 0)) f).

Lemma index_of_lt f fs : (index_of f fs < length fs)%nat <-> In f fs.
Proof.
  induction fs as [|h t IH]; cbn [index_of length]; [cbn; lia|].
  destruct (list_eq_dec Z.eq_dec h f) as [->|Hne].
  - split; [left; reflexivity|lia].
  - fold (index_of f t). cbn [In]. rewrite <- Nat.succ_lt_mono, IH. intuition congruence.
Qed.

Lemma index_of_nth f fs d : In f fs -> nth (index_of f fs) fs d = f.
Proof.
  induction fs as [|h t IH]; cbn [index_of In]; [tauto|].
  destruct (list_eq_dec Z.eq_dec h f) as [->|Hne]; [reflexivity|].
  intros [H|H]; [contradiction|]. cbn [nth]. now apply IH.
Qed.

Lemma classes_complete f : length f = 4%nat -> Forall okflag f -> 
  (In f classes <-> (nonzero f <= 2)%nat).
Proof.
  intros Hl Hf. destruct (length4 f Hl) as (a&b&c&d&->).
  inversion Hf as [|? ? Ha Hf1]; subst. inversion Hf1 as [|? ? Hb Hf2]; subst.
  inversion Hf2 as [|? ? Hc Hf3]; subst. inversion Hf3 as [|? ? Hd Hf4]; subst.
  destruct Ha as [-> | [-> | ->]], Hb as [-> | [-> | ->]], Hc as [-> | [-> | ->]], Hd as [-> | [-> | ->]];
  rewrite <- index_of_lt; match goal with |- (?a < ?b)%nat <-> (?c <= _)%nat =>
    let a' := eval vm_compute in a in let b' := eval vm_compute in b in let c' := eval vm_compute in c in
    change (a' < b' <-> c' <= 2)%nat end; split; intros; lia.
Qed.

Lemma classes_index k : (k < 33)%nat -> index_of (nth k classes []) classes = k.
Proof.
  intros H. do 33 (destruct k as [|k]; [reflexivity|]). lia.
Qed.

Lemma classes_ok k : (k < 33)%nat -> Forall okflag (nth k classes []) /\ length (nth k classes []) = 4%nat.
Proof.
  intros H. assert (K : Forall (fun f => Forall okflag f /\ length f = 4%nat) classes).
  { unfold classes, okflag. repeat (constructor; [split; [|reflexivity]; repeat (constructor; [auto|]); constructor|]). constructor. }
  rewrite Forall_forall in K. apply K. apply nth_In. exact H.
Qed.

Lemma fill_box f l v mu : length f = length l -> (mu < length f)%nat -> f.[mu] = 0 ->
  in_box v (kept f l) -> 0 <= (fill f l v).[mu] < l.[mu].
Proof.
  revert l v mu. induction f as [|a f' IH]; intros [|n l] v mu Hl Hmu Hz Hbox; cbn [length] in *; try lia.
  cbn [kept] in Hbox. cbn [fill]. destruct mu as [|mu]; cbn [nth] in *.
  - subst a. cbn [Z.eqb] in *. inversion Hbox; subst. cbn [nth]. assumption.
  - destruct (a =? 0).
    + inversion Hbox; subst. cbn [nth]. apply IH; auto; lia.
    + cbn [nth]. apply IH; auto; lia.
Qed.

Section G.
Context (g : grid) (Hv : valid_grid g = true).

Lemma sizes_nth f : In f classes -> (sizes g).[index_of f classes] = csize g f.
Proof.
  intros H. unfold sizes. rewrite (nth_indep _ 0 (csize g [])).
  - rewrite map_nth. f_equal. now apply index_of_nth.
  - rewrite map_length. now apply index_of_lt.
Qed.

Lemma flags_length y : length y = 4%nat -> length (flags g y) = 4%nat.
Proof. intros H. unfold flags. rewrite map2_length; rewrite (loc_len g Hv); auto. Qed.

Lemma flags_ok y : Forall okflag (flags g y).
Proof.
  unfold flags. generalize (locSize g) as l. intros l. revert y.
  induction l as [|n l IH]; intros [|c y]; cbn [map2]; constructor; auto using flag1_ok.
Qed.

Lemma flags_nth y mu : length y = 4%nat -> (mu < 4)%nat -> (flags g y).[mu] = flag1 (locSize g).[mu] y.[mu].
Proof.
  intros Hy Hmu. destruct (length4 y Hy) as (a&b&c&d&->). destruct (length4 _ (loc_len g Hv)) as (p&q&r&s&E).
  unfold flags. rewrite E. destruct mu as [|[|[|[|]]]]; try lia; reflexivity.
Qed.

Lemma n_out_nonzero y : ext_site g y -> n_out g y = nonzero (flags g y).
Proof.
  intros [Hl Hy]. destruct (length4 y Hl) as (y0&y1&y2&y3&->).
  destruct (valid_grid_inv g Hv) as (n0&n1&n2&n3&l0&l1&l2&l3&Hg&Hls&Hn&Hll).
  unfold n_out, nonzero, flags. rewrite Hls in *.
  pose proof (Hy 0%nat ltac:(lia)) as Y0. pose proof (Hy 1%nat ltac:(lia)) as Y1.
  pose proof (Hy 2%nat ltac:(lia)) as Y2. pose proof (Hy 3%nat ltac:(lia)) as Y3. clear Hy.
  rewrite Hg in Y0,Y1,Y2,Y3. cbn [nRanksDir nth] in *.
  assert (K : forall n l c, 2 <= l -> (if 1 <? n then -1 <= c <= l else 0 <= c < l) -> 
     negb ((0 <=? c) && (c <? l)) = negb (flag1 l c =? 0)).
  { intros n l c H2 Hc. unfold flag1. destruct (1 <? n); destruct (Z.eqb_spec c (-1)); destruct (Z.eqb_spec c l); cbn; lia. }
  cbn [map2 filter nth]. rewrite (K n0 l0 y0), (K n1 l1 y1), (K n2 l2 y2), (K n3 l3 y3) by (assumption || lia).
  destruct (negb (flag1 l0 y0 =? 0)), (negb (flag1 l1 y1 =? 0)), (negb (flag1 l2 y2 =? 0)), (negb (flag1 l3 y3 =? 0)); reflexivity.
Qed.

Lemma in_classes y : ext_site g y -> (In (flags g y) classes <-> (n_out g y <= 2)%nat).
Proof.
  intros He. rewrite n_out_nonzero by assumption. apply classes_complete; [|apply flags_ok].
  apply flags_length, He.
Qed.

(** kept coordinates are inside and the class is not empty *)
Lemma kept_box y : ext_site g y -> in_box (kept (flags g y) y) (kept (flags g y) (locSize g)).
Proof.
  intros [Hl Hy]. destruct (length4 y Hl) as (y0&y1&y2&y3&->).
  destruct (valid_grid_inv g Hv) as (n0&n1&n2&n3&l0&l1&l2&l3&Hg&Hls&Hn&Hll).
  pose proof (Hy 0%nat ltac:(lia)) as Y0. pose proof (Hy 1%nat ltac:(lia)) as Y1.
  pose proof (Hy 2%nat ltac:(lia)) as Y2. pose proof (Hy 3%nat ltac:(lia)) as Y3. clear Hy.
  rewrite Hls in *. rewrite Hg in Y0,Y1,Y2,Y3. cbn [nRanksDir nth] in *.
  destruct (flag_props n0 l0 y0 ltac:(lia) ltac:(lia) Y0) as (_&_&C0&_).
  destruct (flag_props n1 l1 y1 ltac:(lia) ltac:(lia) Y1) as (_&_&C1&_).
  destruct (flag_props n2 l2 y2 ltac:(lia) ltac:(lia) Y2) as (_&_&C2&_).
  destruct (flag_props n3 l3 y3 ltac:(lia) ltac:(lia) Y3) as (_&_&C3&_).
  unfold flags. rewrite Hls. cbn [map2 kept].
  destruct (Z.eqb_spec (flag1 l0 y0) 0) as [E0|_]; destruct (Z.eqb_spec (flag1 l1 y1) 0) as [E1|_];
  destruct (Z.eqb_spec (flag1 l2 y2) 0) as [E2|_]; destruct (Z.eqb_spec (flag1 l3 y3) 0) as [E3|_];
  repeat constructor; lia.
Qed.

Lemma parprod_one y : ext_site g y -> parprod (flags g y) (pars g) = 1.
Proof.
  intros [Hl Hy]. destruct (length4 y Hl) as (y0&y1&y2&y3&->).
  destruct (valid_grid_inv g Hv) as (n0&n1&n2&n3&l0&l1&l2&l3&Hg&Hls&Hn&Hll).
  pose proof (Hy 0%nat ltac:(lia)) as Y0. pose proof (Hy 1%nat ltac:(lia)) as Y1.
  pose proof (Hy 2%nat ltac:(lia)) as Y2. pose proof (Hy 3%nat ltac:(lia)) as Y3. clear Hy.
  rewrite Hls in *. rewrite Hg in Y0,Y1,Y2,Y3. cbn [nRanksDir nth] in *.
  destruct (flag_props n0 l0 y0 ltac:(lia) ltac:(lia) Y0) as (_&_&_&C0).
  destruct (flag_props n1 l1 y1 ltac:(lia) ltac:(lia) Y1) as (_&_&_&C1).
  destruct (flag_props n2 l2 y2 ltac:(lia) ltac:(lia) Y2) as (_&_&_&C2).
  destruct (flag_props n3 l3 y3 ltac:(lia) ltac:(lia) Y3) as (_&_&_&C3).
  unfold flags, pars, isDirParallel. rewrite Hls, Hg. cbn [map2 map dirs nRanksDir nth parprod].
  assert (K : forall l y n, (flag1 l y <> 0 -> 1 < n) -> (if flag1 l y =? 0 then 1 else b01 (1 <? n)) = 1).
  { intros l y n H. destruct (Z.eqb_spec (flag1 l y) 0); [reflexivity|]. specialize (H n4).
    destruct (Z.ltb_spec 1 n); [reflexivity|lia]. }
  rewrite !K by assumption. reflexivity.
Qed.

Lemma csize_prod y : ext_site g y -> csize g (flags g y) = prodZ (kept (flags g y) (locSize g)).
Proof. intros H. unfold csize. rewrite (parprod_one y H). ring. Qed.

Lemma fullLx_in y : ext_site g y -> (n_out g y <= 2)%nat ->
  let k := index_of (flags g y) classes in
  let r := row_major (kept (flags g y) y) (kept (flags g y) (locSize g)) in
  (k < 33)%nat /\ fullLxOfCoords g y = prefix (sizes g) k + r /\ 0 <= r < (sizes g).[k].
Proof.
  intros He Hn. cbn zeta. apply (in_classes y He) in Hn. pose proof Hn as Hin.
  apply index_of_lt in Hn. change (length classes) with 33%nat in Hn. split; [assumption|]. split.
  - now apply fullLx_class.
  - rewrite sizes_nth by assumption. rewrite (csize_prod y He). apply row_major_bounds. now apply kept_box.
Qed.

Lemma sizes_len : length (sizes g) = 33%nat.
Proof. reflexivity. Qed.

Lemma fullLx_bounds y : ext_site g y -> (n_out g y <= 2)%nat ->
  0 <= fullLxOfCoords g y < locVol g + bordVol g + edgeVol g.
Proof.
  intros He Hn. destruct (fullLx_in y He Hn) as (Hk & E & Hr). rewrite E.
  pose proof (sizes_nonneg g Hv) as Hs.
  pose proof (prefix_mono _ Hs 0 _ (Nat.le_0_l (index_of (flags g y) classes)) ltac:(rewrite sizes_len; lia)) as H0.
  pose proof (prefix_mono _ Hs (S (index_of (flags g y) classes)) 33%nat ltac:(lia) ltac:(rewrite sizes_len; lia)) as H1.
  rewrite prefix_S in H1 by (rewrite sizes_len; lia).
  change 33%nat with (length (sizes g)) in H1. rewrite prefix_all, (sizes_sum g Hv) in H1.
  change (prefix (sizes g) 0) with 0 in H0. lia.
Qed.

Lemma fullLx_inj y z : ext_site g y -> (n_out g y <= 2)%nat -> ext_site g z -> (n_out g z <= 2)%nat ->
  fullLxOfCoords g y = fullLxOfCoords g z -> y = z.
Proof.
  intros He Hn He' Hn' E. 
  destruct (fullLx_in y He Hn) as (Hk & E1 & Hr). destruct (fullLx_in z He' Hn') as (Hk' & E2 & Hr').
  rewrite E1, E2 in E.
  apply prefix_unique in E as [Ek Er]; auto using sizes_nonneg.
  apply (in_classes y He) in Hn. apply (in_classes z He') in Hn'.
  assert (Ef : flags g y = flags g z).
  { rewrite <- (index_of_nth (flags g y) classes [] Hn), <- (index_of_nth (flags g z) classes [] Hn'), Ek. reflexivity. }
  rewrite Ef in Er. 
  assert (Ekk : kept (flags g z) y = kept (flags g z) z).
  { apply (row_major_inj (kept (flags g z) (locSize g))); auto using kept_box. rewrite <- Ef. now apply kept_box. }
  pose proof (loc_len g Hv) as HL.
  rewrite <- (fill_kept (locSize g) y) by (rewrite HL; symmetry; apply He).
  rewrite <- (fill_kept (locSize g) z) by (rewrite HL; symmetry; apply He').
  fold (flags g y). fold (flags g z). rewrite Ef, Ekk. reflexivity.
Qed.

Lemma parprod_pos_par f mu : 0 < parprod f (pars g) -> length f = 4%nat -> (mu < 4)%nat -> f.[mu] <> 0 -> isDirParallel g mu = true.
Proof.
  intros Hp Hl Hmu Hf. destruct (length4 f Hl) as (a&b&c&d&->).
  unfold pars in Hp. cbn [map dirs parprod] in Hp.
  assert (K : forall a m r, 0 < (if a =? 0 then 1 else b01 (isDirParallel g m)) * r -> a <> 0 -> isDirParallel g m = true).
  { intros a' m r H Ha. destruct (Z.eqb_spec a' 0); [contradiction|]. destruct (isDirParallel g m); [reflexivity|cbn in H; lia]. }
  destruct mu as [|[|[|[|]]]]; try lia; cbn [nth] in Hf.
  - eapply K; [|exact Hf]. exact Hp.
  - eapply K; [|exact Hf]. rewrite (Z.mul_comm _ (_ * _)), <- Z.mul_assoc in Hp. exact Hp.
  - eapply (K c 2%nat); [|exact Hf]. 
    match type of Hp with 0 < ?A * (?B * (?C * ?D)) => replace (A*(B*(C*D))) with (C*(A*B*D)) in Hp by ring end. exact Hp.
  - eapply (K d 3%nat); [|exact Hf]. 
    match type of Hp with 0 < ?A * (?B * (?C * (?D * 1))) => replace (A*(B*(C*(D*1)))) with (D*(A*B*C)) in Hp by ring end. exact Hp.
Qed.

Lemma fill_nth f l v mu : length f = 4%nat -> length l = 4%nat -> (mu < 4)%nat ->
  f.[mu] <> 0 -> (fill f l v).[mu] = if f.[mu] =? -1 then -1 else l.[mu].
Proof.
  intros Hf Hl Hmu. revert f l v mu Hf Hl Hmu. 
  assert (K : forall n f l v mu, length f = n -> length l = n -> (mu < n)%nat -> f.[mu] <> 0 -> (fill f l v).[mu] = if f.[mu] =? -1 then -1 else l.[mu]).
  { induction n as [|n IH]; intros [|a f] [|b l] v [|mu]; cbn [length]; intros Hf Hl Hmu; try lia; try discriminate.
    - cbn [nth fill]. intros Ha. destruct (Z.eqb_spec a 0); [contradiction|]. reflexivity.
    - cbn [nth fill]. intros Ha. destruct (a =? 0); [destruct v as [|h v]|]; cbn [nth]; apply IH; lia. }
  intros; now apply (K 4%nat).
Qed.

Lemma fill_length f l v : length f = length l -> length (fill f l v) = length f.
Proof.
  revert l v; induction f as [|a f IH]; intros [|n l] v Hl; try discriminate; [reflexivity|]. cbn [fill].
  destruct (a =? 0); [destruct v|]; cbn [length]; rewrite IH; auto.
Qed.

Lemma fullLx_onto i : 0 <= i < locVol g + bordVol g + edgeVol g ->
  exists y, ext_site g y /\ (n_out g y <= 2)%nat /\ fullLxOfCoords g y = i.
Proof.
  intros Hi. rewrite <- (sizes_sum g Hv) in Hi.
  destruct (prefix_locate (sizes g) i Hi) as (k & Hk & Hr). rewrite sizes_len in Hk.
  set (f := nth k classes []). destruct (classes_ok k Hk) as [Hok Hlf]. fold f in Hok, Hlf.
  assert (Hin : In f classes) by (apply nth_In; exact Hk).
  assert (Hidx : index_of f classes = k) by now apply classes_index.
  assert (Hcs : (sizes g).[k] = csize g f) by (rewrite <- Hidx; now apply sizes_nth).
  rewrite Hcs in Hr. unfold csize in Hr.
  pose proof (loc_len g Hv) as HL. pose proof (locSize_pos g Hv) as HP.
  assert (Hkp : 0 < prodZ (kept f (locSize g))) by (apply prodZ_pos, kept_Forall; exact HP).
  assert (Hpp : 0 < parprod f (pars g)) by nia.
  assert (Hp1 : parprod f (pars g) <= 1).
  { assert (B : forall b, 0 <= b01 b <= 1) by (intros []; cbn; lia).
    unfold pars. clear - B Hlf. revert f Hlf. induction dirs as [|m ds IH]; intros [|a f] Hlf; cbn; try lia.
    assert (0 <= parprod f (map (fun mu => b01 (isDirParallel g mu)) ds) <= 1).
    { assert (K: forall (q:list nat) f, 0 <= parprod f (map (fun mu => b01 (isDirParallel g mu)) q) <= 1).
      { induction q as [|m' q IHq]; intros [|a' f']; cbn; try lia. specialize (IHq f').
        specialize (B (isDirParallel g m')). destruct (a' =? 0); nia. }
      apply K. }
    specialize (B (isDirParallel g m)). destruct (a =? 0); nia. }
  assert (Hp2 : parprod f (pars g) = 1) by lia. rewrite Hp2, Z.mul_1_l in Hr.
  set (v := coordOfLx (i - prefix (sizes g) k) (kept f (locSize g))).
  destruct (coordOfLx_spec (kept f (locSize g)) ltac:(apply kept_Forall; exact HP) _ Hr) as [Hbox Hrm]. fold v in Hbox, Hrm.
  destruct (flags_fill f (locSize g) v Hok HP ltac:(rewrite HL; exact Hlf) Hbox) as [Hfl Hke].
  fold (flags g (fill f (locSize g) v)) in Hfl.
  exists (fill f (locSize g) v).
  assert (Hext : ext_site g (fill f (locSize g) v)).
  { split; [rewrite fill_length; [assumption|congruence]|]. intros mu Hmu.
    assert (HL0 : 0 < (locSize g).[mu]).
    { rewrite Forall_forall in HP. apply HP, nth_In. rewrite HL; exact Hmu. }
    destruct (Z.eq_dec f.[mu] 0) as [Hz|Hnz].
    - pose proof (fill_box f (locSize g) v mu ltac:(congruence) ltac:(congruence) Hz Hbox) as Hb.
      destruct (1 <? (nRanksDir g).[mu]); lia.
    - pose proof (parprod_pos_par f mu Hpp Hlf Hmu Hnz) as Hpar. unfold isDirParallel in Hpar. rewrite Hpar.
      rewrite fill_nth by (assumption || congruence). destruct (f.[mu] =? -1); lia. }
  split; [assumption|].
  assert (Hn2 : (n_out g (fill f (locSize g) v) <= 2)%nat).
  { apply in_classes; [assumption|]. rewrite Hfl. assumption. }
  split; [assumption|].
  destruct (fullLx_in _ Hext Hn2) as (_ & E & _). rewrite E, Hfl, Hke, Hidx, Hrm. lia.
Qed.

(** beyond two outside coordinates: -1 *)
Lemma fullLx_none y : ext_site g y -> (2 < n_out g y)%nat -> fullLxOfCoords g y = -1.
Proof.
  intros [Hlen Hy] Hno. rewrite n_out_nonzero in Hno by (split; assumption).
  destruct (length4 y Hlen) as (y0&y1&y2&y3&->).
  destruct (valid_grid_inv g Hv) as (n0&n1&n2&n3&l0&l1&l2&l3&Hg&Hl&Hn&Hll).
  pose proof (Hy 0%nat ltac:(lia)) as Y0. pose proof (Hy 1%nat ltac:(lia)) as Y1.
  pose proof (Hy 2%nat ltac:(lia)) as Y2. pose proof (Hy 3%nat ltac:(lia)) as Y3. clear Hy.
  rewrite Hl in *. rewrite Hg in Y0, Y1, Y2, Y3. cbn [nth nRanksDir] in Y0,Y1,Y2,Y3.
  destruct (flag_props n0 l0 y0 ltac:(lia) ltac:(lia) Y0) as (A0&B0&C0&_).
  destruct (flag_props n1 l1 y1 ltac:(lia) ltac:(lia) Y1) as (A1&B1&C1&_).
  destruct (flag_props n2 l2 y2 ltac:(lia) ltac:(lia) Y2) as (A2&B2&C2&_).
  destruct (flag_props n3 l3 y3 ltac:(lia) ltac:(lia) Y3) as (A3&B3&C3&_).
  cbn zeta in *.
  unfold flags in Hno. rewrite Hl in Hno. cbn [map2] in Hno.
  unfold fullLxOfCoords.
  assert (Ex : map2 Z.modulo [y0;y1;y2;y3] (glbSize g) = [y0 mod (n0*l0); y1 mod (n1*l1); y2 mod (n2*l2); y3 mod (n3*l3)])
    by (rewrite Hg; reflexivity).
  rewrite Ex. clear Ex.
  set (x0 := y0 mod (n0*l0)) in *. set (x1 := y1 mod (n1*l1)) in *.
  set (x2 := y2 mod (n2*l2)) in *. set (x3 := y3 mod (n3*l3)) in *.
  assert (I0 : is_bord g [x0;x1;x2;x3] 0 = flag1 l0 y0).
  { rewrite <- A0. unfold is_bord, isDirParallel. rewrite Hl, Hg. reflexivity. }
  assert (I1 : is_bord g [x0;x1;x2;x3] 1 = flag1 l1 y1).
  { rewrite <- A1. unfold is_bord, isDirParallel. rewrite Hl, Hg. reflexivity. }
  assert (I2 : is_bord g [x0;x1;x2;x3] 2 = flag1 l2 y2).
  { rewrite <- A2. unfold is_bord, isDirParallel. rewrite Hl, Hg. reflexivity. }
  assert (I3 : is_bord g [x0;x1;x2;x3] 3 = flag1 l3 y3).
  { rewrite <- A3. unfold is_bord, isDirParallel. rewrite Hl, Hg. reflexivity. }
  assert (Hdir : forallb (fun mu => (0 <=? [x0;x1;x2;x3].[mu]) && ([x0;x1;x2;x3].[mu] <? (locSize g).[mu])) dirs =
    ((flag1 l0 y0 =? 0) && ((flag1 l1 y1 =? 0) && ((flag1 l2 y2 =? 0) && ((flag1 l3 y3 =? 0) && true))))).
  { rewrite Hl. unfold dirs. cbn [forallb nth]. rewrite B0, B1, B2, B3. reflexivity. }
  rewrite Hdir. clear Hdir.
  unfold is_one_bord, is_edge_pair.
  cbn [dirs list_prod map app find perpDirs perp2Dirs nth forallb].
  rewrite I0, I1, I2, I3.
  unfold nonzero in Hno. cbn [filter] in Hno. clear - Hno.
  destruct (flag1 l0 y0 =? 0), (flag1 l1 y1 =? 0), (flag1 l2 y2 =? 0), (flag1 l3 y3 =? 0); 
    cbn [negb length] in Hno; try (exfalso; clear - Hno; lia); reflexivity.
Qed.

Lemma fullLx_periodic y z : map2 Z.modulo y (glbSize g) = map2 Z.modulo z (glbSize g) ->
  fullLxOfCoords g y = fullLxOfCoords g z.
Proof. intros H. unfold fullLxOfCoords. rewrite H. reflexivity. Qed.
End G.
