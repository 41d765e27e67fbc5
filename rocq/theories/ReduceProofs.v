From Verif Require Import Base ParModel ParSpec ParProofs ReduceModel ReduceSpec.
From Coq Require Import Permutation.

Section P.
Context {V : Type}.
Implicit Types (m : mem V) (op : V -> V -> V).

Definition oplus op (a b : option V) : option V :=
  match a, b with
  | None, _ => b
  | _, None => a
  | Some x, Some y => Some (op x y)
  end.

Lemma total_cons op x l : total op (x :: l) = oplus op (Some x) (total op l).
Proof. cbn. destruct (total op l); auto. Qed.

Section AC.
Variable op : V -> V -> V.
Hypothesis (HA : associative op) (HC : commutative op).

Lemma oplus_assoc a b c : oplus op a (oplus op b c) = oplus op (oplus op a b) c.
Proof. destruct a, b, c; cbn; auto. f_equal. apply HA. Qed.
Lemma oplus_comm a b : oplus op a b = oplus op b a.
Proof. destruct a, b; cbn; auto. f_equal. apply HC. Qed.
Lemma oplus_swap a b c d : oplus op (oplus op a b) (oplus op c d) = oplus op (oplus op a c) (oplus op b d).
Proof.
  rewrite <- !oplus_assoc. f_equal. rewrite !oplus_assoc. f_equal. apply oplus_comm.
Qed.

Lemma total_app l l' : total op (l ++ l') = oplus op (total op l) (total op l').
Proof.
  induction l as [|x l IH]; cbn [app]; [reflexivity|].
  rewrite !total_cons, IH. apply oplus_assoc.
Qed.

Lemma total_perm l l' : Permutation l l' -> total op l = total op l'.
Proof.
  induction 1 as [|x l l' H IH|x y l|l l' l'' H1 I1 H2 I2]; auto.
  - now rewrite !total_cons, IH.
  - rewrite !total_cons, !oplus_assoc. f_equal. apply oplus_comm.
  - congruence.
Qed.

Lemma total_map2 {A} (f g : A -> V) l :
  total op (map (fun i => op (f i) (g i)) l) = oplus op (total op (map f l)) (total op (map g l)).
Proof.
  induction l as [|x l IH]; cbn [map]; [reflexivity|].
  rewrite !total_cons, IH. rewrite (oplus_swap (Some (f x))). reflexivity.
Qed.

Lemma red_total l v : red_of op l v -> total op l = Some v.
Proof.
  induction 1 as [x|l1 l2 l a b H1 I1 H2 I2 Hp]; [reflexivity|].
  rewrite (total_perm _ _ Hp), total_app, I1, I2. reflexivity.
Qed.

Lemma total_nonempty l : l <> [] -> exists v, total op l = Some v.
Proof. destruct l as [|x l]; [congruence|]. intros _. cbn. destruct (total op l); eauto. Qed.
End AC.

(** one combination *)
Lemma combine_degs_confined op ix f s degs R W :
  (forall d, In d degs -> W (ix f d) = true) -> (forall d, In d degs -> R (ix f d) = true) ->
  (forall d, In d degs -> R (ix s d) = true) -> confined R W (combine_degs op ix f s degs).
Proof.
  induction degs as [|d r IH]; intros HW HR HS; cbn [combine_degs confined]; auto.
  split; [apply HR; left; auto|]. intros x. split; [apply HS; left; auto|]. intros y.
  split; [apply HW; left; auto|]. apply IH; intros; [apply HW|apply HR|apply HS]; right; auto.
Qed.

Lemma combine_degs_run op ix f s degs : NoDup degs ->
  (forall d d', In d degs -> In d' degs -> ix f d = ix f d' -> d = d') ->
  (forall d d', In d degs -> In d' degs -> ix f d <> ix s d') ->
  forall m, (forall d, In d degs -> run (combine_degs op ix f s degs) m (ix f d) = op (m (ix f d)) (m (ix s d))) /\
    (forall a, (forall d, In d degs -> a <> ix f d) -> run (combine_degs op ix f s degs) m a = m a).
Proof.
  induction degs as [|d r IH]; intros Hnd Hi Hs m; cbn [combine_degs run].
  - split; [intros d []|auto].
  - inversion Hnd as [|x y Hx Hy]; subst.
    destruct (IH Hy) with (m := store m (ix f d) (op (m (ix f d)) (m (ix s d)))) as [I1 I2].
    { intros; apply Hi; auto; right; auto. } { intros; apply Hs; right; auto. }
    split.
    + intros e [<-|He].
      * rewrite I2. { unfold store. now rewrite Z.eqb_refl. }
        intros e He E. apply Hi in E; [subst; contradiction|left; auto|right; auto].
      * rewrite I1 by auto. unfold store.
        destruct (Z.eqb_spec (ix f e) (ix f d)) as [E|E].
        { apply Hi in E; [subst; contradiction|right; auto|left; auto]. }
        destruct (Z.eqb_spec (ix s e) (ix f d)) as [E'|E']; [|reflexivity].
        exfalso. apply (Hs d e); auto; [left; auto|right; auto].
    + intros a Ha. rewrite I2 by (intros; apply Ha; right; auto). unfold store.
      destruct (Z.eqb_spec a (ix f d)); auto. exfalso. apply (Ha d); auto. left; auto.
Qed.

(** one round *)
Section Round.
Variables (op : V -> V -> V) (ix : Z -> Z -> Z) (ndeg nslices nori : Z).
Hypothesis (Hns : 0 < nslices) (Hnori : 0 < nori).
Hypothesis (Hix : distinct_addresses ix (nslices * nori) ndeg).

Let first (i : Z) : Z := i / nslices + nori * (i mod nslices).
Let Wb (i a : Z) : bool := existsb (fun d => a =? ix (first i) d) (seqZ ndeg).
Let Rb (stride i a : Z) : bool := Wb i a || existsb (fun d => a =? ix (first i + stride) d) (seqZ ndeg).

Lemma existsb_ix a g : existsb (fun d => a =? g d) (seqZ ndeg) = true <-> exists d, 0 <= d < ndeg /\ a = g d.
Proof.
  rewrite existsb_exists. split; intros (d & H1 & H2); exists d; [apply in_seqZ in H1|rewrite in_seqZ]; lia.
Qed.

Lemma first_bounds nper i : 1 < nper <= nori -> 0 <= i < nper / 2 * nslices ->
  0 <= i / nslices < nper / 2 /\ 0 <= i mod nslices < nslices /\
  0 <= first i < nslices * nori /\ 0 <= first i + (nper + 1) / 2 < nslices * nori.
Proof.
  intros Hn Hi. pose proof (Z.mod_pos_bound i nslices Hns).
  assert (0 <= i / nslices < nper / 2).
  { split; [apply Z.div_pos; lia|]. apply Z.div_lt_upper_bound; lia. }
  assert (Hh : nper / 2 + (nper + 1) / 2 <= nper).
  { pose proof (Z.div_mod nper 2). pose proof (Z.div_mod (nper + 1) 2).
    pose proof (Z.mod_pos_bound nper 2). pose proof (Z.mod_pos_bound (nper + 1) 2). lia. }
  assert (0 <= (nper + 1) / 2) by (apply Z.div_pos; lia).
  unfold first. repeat split; try lia; nia.
Qed.

Lemma first_eq nper i j da db : 1 < nper <= nori -> 0 <= i < nper / 2 * nslices -> 0 <= j < nper / 2 * nslices ->
  0 <= da <= (nper + 1) / 2 -> 0 <= db <= (nper + 1) / 2 ->
  i / nslices + da < nper -> j / nslices + db < nper ->
  first i + da = first j + db -> i mod nslices = j mod nslices /\ i / nslices + da = j / nslices + db.
Proof.
  intros Hn Hi Hj Ha Hb H1 H2 E.
  destruct (first_bounds nper i Hn Hi) as (A1 & A2 & _). destruct (first_bounds nper j Hn Hj) as (B1 & B2 & _).
  unfold first in E.
  assert (i mod nslices = j mod nslices) by nia. split; [auto|]. rewrite H in E. lia.
Qed.

Lemma half_sum nper : 1 < nper -> nper / 2 + (nper + 1) / 2 = nper /\ nper / 2 <= (nper + 1) / 2 /\ 1 <= nper / 2.
Proof.
  intros H. pose proof (Z.div_mod nper 2). pose proof (Z.div_mod (nper + 1) 2).
  pose proof (Z.mod_pos_bound nper 2). pose proof (Z.mod_pos_bound (nper + 1) 2). lia.
Qed.

Lemma round_indep nper : 1 < nper <= nori ->
  indep (reduction_body op ix ndeg nslices ((nper + 1) / 2) nori) (rangeZ 0 (nper / 2 * nslices))
        (Rb ((nper + 1) / 2)) Wb.
Proof.
  intros Hn. destruct (half_sum nper ltac:(lia)) as (S1 & S2 & S3).
  split; [|split].
  - intros i Hi. unfold reduction_body. apply combine_degs_confined; intros d Hd; apply in_seqZ in Hd.
    + unfold Wb. apply existsb_ix. exists d. auto.
    + unfold Rb. apply orb_true_intro. left. unfold Wb. apply existsb_ix. exists d. auto.
    + unfold Rb. apply orb_true_intro. right. apply (existsb_ix _ (ix (first i + (nper + 1) / 2))). exists d. auto.
  - intros i a _ H. unfold Rb. now rewrite H.
  - intros i j a Hi Hj Hij Ha. apply in_rangeZ in Hi. apply in_rangeZ in Hj.
    unfold Wb in Ha. apply (existsb_ix _ (ix (first i))) in Ha. destruct Ha as (d & Hd & ->).
    destruct (first_bounds nper i Hn Hi) as (A1 & A2 & A3 & A4).
    destruct (first_bounds nper j Hn Hj) as (B1 & B2 & B3 & B4).
    unfold Rb. apply orb_false_intro; apply not_true_iff_false; intros E.
    + apply (existsb_ix _ (ix (first j))) in E. destruct E as (e & He & E).
      apply Hix in E; auto. destruct E as [E _].
      destruct (first_eq nper i j 0 0) as [E1 E2]; auto; try lia.
    + apply (existsb_ix _ (ix (first j + (nper + 1) / 2))) in E. destruct E as (e & He & E).
      apply Hix in E; auto. destruct E as [E _].
      destruct (first_eq nper i j 0 ((nper + 1) / 2)) as [E1 E2]; auto; try lia.
Qed.

Lemma round_values bk nper m m1 : 1 < nper <= nori ->
  fits bk 0 (nper / 2 * nslices) ->
  PAR bk 0 (nper / 2 * nslices) (reduction_body op ix ndeg nslices ((nper + 1) / 2) nori) m m1 ->
  forall s d, 0 <= s < nslices -> 0 <= d < ndeg ->
   (forall i, 0 <= i < nper / 2 -> m1 (ix (i + nori * s) d) =
      op (m (ix (i + nori * s) d)) (m (ix (i + nori * s + (nper + 1) / 2) d))) /\
   (forall i, nper / 2 <= i < nper -> m1 (ix (i + nori * s) d) = m (ix (i + nori * s) d)).
Proof.
  intros Hn Hf HP s d Hs Hd. unfold PAR in HP. rewrite launched_fits in HP by auto.
  destruct (half_sum nper ltac:(lia)) as (S1 & S2 & S3).
  destruct (par_out _ _ _ _ _ _ (NoDup_rangeZ _ _) (round_indep nper Hn) HP) as [O1 O2]. split.
  - intros i Hi. pose (k := i * nslices + s).
    assert (Hk1 : k / nslices = i). { symmetry. apply Z.div_unique with s; unfold k; lia. }
    assert (Hk2 : k mod nslices = s). { symmetry. apply Z.mod_unique with i; unfold k; lia. }
    assert (Hfk : first k = i + nori * s) by (unfold first; rewrite Hk1, Hk2; ring).
    assert (Hk : 0 <= k < nper / 2 * nslices) by (unfold k; nia).
    destruct (first_bounds nper k Hn Hk) as (A1 & A2 & A3 & A4).
    rewrite (O1 k).
    2:{ apply in_rangeZ. lia. }
    2:{ unfold Wb. apply (existsb_ix _ (ix (first k))). exists d. rewrite Hfk. auto. }
    unfold reduction_body. fold (first k). rewrite Hfk in *.
    apply combine_degs_run.
    + apply NoDup_seqZ.
    + intros x y Hx Hy E. apply in_seqZ in Hx. apply in_seqZ in Hy. apply Hix in E; tauto.
    + intros x y Hx Hy E. apply in_seqZ in Hx. apply in_seqZ in Hy. apply Hix in E; auto. lia.
    + apply in_seqZ. auto.
  - intros i Hi. apply O2. intros k Hk. apply in_rangeZ in Hk. apply not_true_iff_false. intros E.
    apply (existsb_ix _ (ix (first k))) in E. destruct E as (e & He & E).
    destruct (first_bounds nper k Hn Hk) as (A1 & A2 & A3 & A4).
    apply Hix in E; auto; [|nia]. destruct E as [E _]. unfold first in E.
    set (q := k / nslices) in *. set (r := k mod nslices) in *. set (h := nper / 2) in *.
    assert (s = r). { clear - E Hi A1 Hn Hnori S1 S3. assert (0 <= i < nori) by lia. assert (0 <= q < nori) by lia. nia. }
    subst s. lia.
Qed.

Lemma seqZ_split n k : 0 <= k <= n -> seqZ n = seqZ k ++ map (fun t => k + t) (seqZ (n - k)).
Proof. intros H. rewrite <- seqZ_app by lia. f_equal. lia. Qed.

Lemma round_total (HA : associative op) (HC : commutative op) bk nper m m1 : 1 < nper <= nori ->
  fits bk 0 (nper / 2 * nslices) ->
  PAR bk 0 (nper / 2 * nslices) (reduction_body op ix ndeg nslices ((nper + 1) / 2) nori) m m1 ->
  forall s d, 0 <= s < nslices -> 0 <= d < ndeg ->
  total op (map (fun i => m1 (ix (i + nori * s) d)) (seqZ ((nper + 1) / 2))) =
  total op (map (fun i => m (ix (i + nori * s) d)) (seqZ nper)).
Proof.
  intros Hn Hf HP s d Hs Hd. destruct (round_values bk nper m m1 Hn Hf HP s d Hs Hd) as [R1 R2].
  destruct (half_sum nper ltac:(lia)) as (S1 & S2 & S3).
  set (h := nper / 2) in *. set (st := (nper + 1) / 2) in *.
  set (g := fun i => m (ix (i + nori * s) d)).
  assert (E1 : map (fun i => m1 (ix (i + nori * s) d)) (seqZ st) =
               map (fun i => op (g i) (g (st + i))) (seqZ h) ++ map (fun t => g (h + t)) (seqZ (st - h))).
  { rewrite (seqZ_split st h) by lia. rewrite map_app, map_map. f_equal.
    - apply map_ext_in. intros i Hi. apply in_seqZ in Hi. rewrite R1 by lia. unfold g. do 3 f_equal. lia.
    - apply map_ext_in. intros i Hi. apply in_seqZ in Hi. apply R2. lia. }
  assert (E2 : map g (seqZ nper) =
               (map g (seqZ h) ++ map (fun t => g (h + t)) (seqZ (st - h))) ++ map (fun t => g (st + t)) (seqZ h)).
  { rewrite (seqZ_split nper st) by lia. rewrite map_app, map_map. f_equal; [|f_equal; f_equal; lia].
    rewrite (seqZ_split st h) by lia. rewrite map_app, map_map. reflexivity. }
  rewrite E1, E2. rewrite !total_app by auto. rewrite total_map2 by auto.
  rewrite <- !oplus_assoc by auto. f_equal. apply oplus_comm. auto.
Qed.

Lemma rem_half nper : 1 < nper -> 1 <= (nper + 1) / 2 < nper.
Proof. intros H. destruct (half_sum nper H). lia. Qed.

Lemma loop_total (HA : associative op) (HC : commutative op) bk nper m m' :
  reduce_loop bk op ix ndeg nslices nori nper m m' -> 1 <= nper <= nori ->
  (forall k, 0 <= k <= nper / 2 * nslices -> fits (bk k) 0 k) ->
  forall s d, 0 <= s < nslices -> 0 <= d < ndeg ->
  total op (map (fun i => m (ix (i + nori * s) d)) (seqZ nper)) = Some (m' (ix (s * nori) d)).
Proof.
  induction 1 as [nper m m' H Hm|nper m m1 m2 H stride nred HP HL IH]; intros Hn Hf s d Hs Hd.
  - assert (nper = 1) by lia. subst. change (seqZ 1) with [0]. cbn [map total]. rewrite Hm. replace (0 + nori * s) with (s * nori) by ring. reflexivity.
  - unfold nred in *. unfold stride in *. pose proof (rem_half nper H).
    rewrite <- IH; auto; try lia.
    + symmetry. apply (round_total HA HC (bk (nper / 2 * nslices))); auto; try lia. apply Hf.
      destruct (half_sum nper H). nia.
    + intros k Hk. apply Hf. destruct (half_sum nper H).
      assert ((nper + 1) / 2 / 2 <= nper / 2). { apply Z.div_le_mono; lia. }
      nia.
Qed.

(** the result does not depend on the schedule, whatever the operation *)
Lemma round_det bk bk' nper m n m1 n1 : 1 < nper <= nori ->
  fits bk 0 (nper / 2 * nslices) -> fits bk' 0 (nper / 2 * nslices) -> (forall a, m a = n a) ->
  PAR bk 0 (nper / 2 * nslices) (reduction_body op ix ndeg nslices ((nper + 1) / 2) nori) m m1 ->
  PAR bk' 0 (nper / 2 * nslices) (reduction_body op ix ndeg nslices ((nper + 1) / 2) nori) n n1 ->
  forall a, m1 a = n1 a.
Proof.
  intros Hn Hf Hf' He H1 H2 a. unfold PAR in *. rewrite launched_fits in H1, H2 by auto.
  rewrite (par_serial _ _ _ _ _ _ (NoDup_rangeZ _ _) (round_indep nper Hn) H1).
  rewrite (par_serial _ _ _ _ _ _ (NoDup_rangeZ _ _) (round_indep nper Hn) H2).
  apply serial_ext. auto.
Qed.

Lemma loop_det bk bk' nper m n m' n' :
  reduce_loop bk op ix ndeg nslices nori nper m m' -> nper <= nori ->
  (forall k, 0 <= k <= nper / 2 * nslices -> fits (bk k) 0 k) ->
  (forall k, 0 <= k <= nper / 2 * nslices -> fits (bk' k) 0 k) ->
  (forall a, m a = n a) -> reduce_loop bk' op ix ndeg nslices nori nper n n' -> forall a, m' a = n' a.
Proof.
  intros H. revert n n'. induction H as [nper m m' H Hm|nper m m1 m2 H stride nred HP HL IH]; intros n n' Hn Hf Hf' He H2 a.
  - inversion H2; subst; [|lia]. rewrite Hm, He. symmetry. auto.
  - inversion H2 as [? ? ? Hle|? ? n1 ? Hlt ? ? HP2 HL2]; subst; [lia|].
    unfold nred in *. unfold stride in *. pose proof (rem_half nper H). destruct (half_sum nper H).
    assert (0 <= nper / 2 * nslices <= nper / 2 * nslices) by nia.
    apply (IH n1 n'); auto; try lia.
    + intros k Hk. apply Hf. assert ((nper + 1) / 2 / 2 <= nper / 2) by (apply Z.div_le_mono; lia). nia.
    + intros k Hk. apply Hf'. assert ((nper + 1) / 2 / 2 <= nper / 2) by (apply Z.div_le_mono; lia). nia.
    + apply (round_det (bk (nper / 2 * nslices)) (bk' (nper / 2 * nslices)) nper m n); auto.
Qed.

(** and the loop always ends *)
Lemma loop_exists bk nper m : exists m', reduce_loop bk op ix ndeg nslices nori nper m m'.
Proof.
  assert (G : forall k nper m, Z.to_nat nper = k -> exists m', reduce_loop bk op ix ndeg nslices nori nper m m').
  { clear nper m. intros k. induction k as [k IH] using lt_wf_ind. intros nper m Hk.
    destruct (Z_le_gt_dec nper 1) as [Hle|Hgt].
    - exists m. apply rl_end; auto.
    - pose proof (rem_half nper ltac:(lia)).
      destruct (IH (Z.to_nat ((nper + 1) / 2)) ltac:(lia) ((nper + 1) / 2)
        (serial_loop (launched (bk (nper / 2 * nslices)) 0 (nper / 2 * nslices))
           (reduction_body op ix ndeg nslices ((nper + 1) / 2) nori) m) eq_refl) as [m' Hm'].
      exists m'. eapply rl_round; [lia| |exact Hm']. apply par_exists. }
  eapply G. reflexivity.
Qed.
End Round.
End P.
