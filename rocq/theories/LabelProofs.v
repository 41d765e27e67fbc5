(** Tables filled by label_all_sites and find_neighbouring_sites. *)
From Verif Require Import Base GeometryModel GeometrySpec GeometryProofs OwnerProofs FullLxProofs FullLxMain.

Lemma list4_ext (x y : list Z) : length x = 4%nat -> length y = 4%nat ->
  (forall mu, (mu < 4)%nat -> x.[mu] = y.[mu]) -> x = y.
Proof.
  intros Hx Hy H. destruct (length4 x Hx) as (a&b&c&d&->). destruct (length4 y Hy) as (e&f&h&k&->).
  pose proof (H 0%nat ltac:(lia)). pose proof (H 1%nat ltac:(lia)).
  pose proof (H 2%nat ltac:(lia)). pose proof (H 3%nat ltac:(lia)). cbn [nth] in *. congruence.
Qed.

Lemma nth_map_dirs (f : nat -> Z) mu : (mu < 4)%nat -> (map f dirs).[mu] = f mu.
Proof. intros H. destruct mu as [|[|[|[|]]]]; try lia; reflexivity. Qed.

Lemma nth_map2 f a b mu : length a = 4%nat -> length b = 4%nat -> (mu < 4)%nat -> (map2 f a b).[mu] = f a.[mu] b.[mu].
Proof.
  intros Ha Hb Hmu. destruct (length4 a Ha) as (a0&a1&a2&a3&->). destruct (length4 b Hb) as (b0&b1&b2&b3&->).
  destruct mu as [|[|[|[|]]]]; try lia; reflexivity.
Qed.

Ltac len4 := repeat (first [assumption | congruence | rewrite map2_length | rewrite upd_length]).

(** *** loops writing into tables *)
Section Writes.
Context {A B : Type} (key : B -> option Z) (val : B -> A).
Definition wstep (t : table A) (a : B) : table A :=
  match key a with Some k => tset t k (val a) | None => t end.

Lemma wfold_in L t a k : In a L -> key a = Some k ->
  (forall b, In b L -> key b = Some k -> val b = val a) -> fold_left wstep L t k = Some (val a).
Proof.
  intros Hin Hk Hag. assert (G : forall L t, (forall b, In b L -> key b = Some k -> val b = val a) ->
    t k = Some (val a) \/ In a L -> fold_left wstep L t k = Some (val a)).
  { clear -Hk. induction L as [|b L IH]; intros t Hag Ht; cbn [fold_left].
    - destruct Ht as [Ht|[]]; assumption.
    - apply IH; [intros c Hc; apply Hag; right; assumption|].
      destruct Ht as [Ht|[->|Hin]].
      + left. unfold wstep. destruct (key b) as [kb|] eqn:Eb; [|assumption].
        unfold tset. destruct (Z.eqb_spec k kb) as [->|]; [|assumption]. f_equal. apply Hag; [left; reflexivity|assumption].
      + left. unfold wstep. rewrite Hk. apply tset_eq.
      + right. assumption. }
  apply G; auto.
Qed.

Lemma wfold_out L t k : (forall b, In b L -> key b <> Some k) -> fold_left wstep L t k = t k.
Proof.
  revert t. induction L as [|b L IH]; intros t H; cbn [fold_left]; [reflexivity|].
  rewrite IH by (intros c Hc; apply H; right; assumption). unfold wstep.
  destruct (key b) as [kb|] eqn:Eb; [|reflexivity]. apply tset_neq. intros ->. apply (H b); [left; reflexivity|assumption].
Qed.
End Writes.

Lemma fold_proj {S A B} (step : S -> B -> S) (proj : S -> table A) key val :
  (forall s a, proj (step s a) = wstep key val (proj s) a) ->
  forall L s, proj (fold_left step L s) = fold_left (wstep key val) L (proj s).
Proof.
  intros H L. induction L as [|a L IH]; intros s; cbn [fold_left]; [reflexivity|]. now rewrite IH, H.
Qed.

Section G.
Context (g : grid) (Hv : valid_grid g = true).

Lemma glb_len : length (glbSize g) = 4%nat.
Proof. destruct (valid_grid_inv g Hv) as (n0&n1&n2&n3&l0&l1&l2&l3&->&_). reflexivity. Qed.
Lemma nr_len : length (nRanksDir g) = 4%nat.
Proof. destruct (valid_grid_inv g Hv) as (n0&n1&n2&n3&l0&l1&l2&l3&->&_). reflexivity. Qed.

(** per direction facts *)
Lemma dir_facts mu : (mu < 4)%nat ->
  2 <= (locSize g).[mu] /\ 0 < (nRanksDir g).[mu] /\ (glbSize g).[mu] = (nRanksDir g).[mu] * (locSize g).[mu].
Proof.
  intros Hmu. destruct (valid_grid_inv g Hv) as (n0&n1&n2&n3&l0&l1&l2&l3&Hg&Hl&Hn&Hll).
  rewrite Hl, Hg. destruct mu as [|[|[|[|]]]]; try lia; cbn [nth glbSize nRanksDir]; lia.
Qed.

Lemma ext_box_len : length (extended_box_size g) = 4%nat. Proof. reflexivity. Qed.

Lemma ext_box_nth mu : (mu < 4)%nat ->
  (extended_box_size g).[mu] = (if isDirParallel g mu then 2 else 0) + (locSize g).[mu].
Proof. intros H. unfold extended_box_size. now rewrite nth_map_dirs. Qed.

Lemma ext_box_pos : Forall (fun n => 0 < n) (extended_box_size g).
Proof.
  rewrite Forall_forall. intros n Hn. destruct (In_nth _ _ 0 Hn) as (mu & Hmu & <-).
  rewrite ext_box_len in Hmu. rewrite ext_box_nth by assumption. pose proof (dir_facts mu Hmu).
  destruct (isDirParallel g mu); lia.
Qed.

Lemma ext_coord_site ivol : 0 <= ivol < volOfLx (extended_box_size g) -> ext_site g (ext_coord g ivol).
Proof.
  rewrite volOfLx_prodZ. intros H. split; [reflexivity|]. intros mu Hmu. unfold ext_coord.
  rewrite nth_map_dirs by assumption.
  pose proof (coordOfLx_in_box _ _ ext_box_pos H) as Hb. apply in_box_nth in Hb as [_ Hb].
  specialize (Hb mu ltac:(rewrite ext_box_len; assumption)). rewrite ext_box_nth in Hb by assumption.
  unfold isDirParallel in *. destruct (1 <? (nRanksDir g).[mu]); lia.
Qed.

Lemma ext_site_coord y : ext_site g y -> exists ivol, 0 <= ivol < volOfLx (extended_box_size g) /\ ext_coord g ivol = y.
Proof.
  intros [Hl Hy].
  set (x := map (fun mu => y.[mu] + (if isDirParallel g mu then 1 else 0)) dirs).
  assert (Hx : in_box x (extended_box_size g)).
  { apply in_box_nth. split; [reflexivity|]. rewrite ext_box_len. intros mu Hmu. unfold x.
    rewrite nth_map_dirs, ext_box_nth by assumption. specialize (Hy mu Hmu). unfold isDirParallel.
    destruct (1 <? (nRanksDir g).[mu]); lia. }
  exists (lxOfCoord x (extended_box_size g)). rewrite volOfLx_prodZ. split; [now apply lxOfCoord_bounds|].
  unfold ext_coord. rewrite coordOfLx_lxOfCoord by assumption. apply list4_ext; [reflexivity|assumption|].
  intros mu Hmu. rewrite nth_map_dirs by assumption. unfold x. rewrite nth_map_dirs by assumption.
  destruct (isDirParallel g mu); lia.
Qed.

Lemma glb_of_ext_true rc y : in_box rc (nRanksDir g) -> ext_site g y -> glb_of_ext g rc y = true_glb g rc y.
Proof.
  intros Hrc [Hl Hy]. unfold glb_of_ext, true_glb.
  pose proof (in_box_length _ _ Hrc) as Hrl. rewrite nr_len in Hrl.
  pose proof (loc_len g Hv). pose proof glb_len.
  apply list4_ext; [reflexivity| |].
  { len4. }
  intros mu Hmu. rewrite nth_map_dirs by assumption.
  rewrite !nth_map2 by len4.
  apply in_box_nth in Hrc as [_ Hrc]. specialize (Hrc mu ltac:(rewrite nr_len; assumption)).
  specialize (Hy mu Hmu). destruct (dir_facts mu Hmu) as (H2 & Hn & HG). rewrite HG.
  set (l := (locSize g).[mu]) in *. set (n := (nRanksDir g).[mu]) in *. set (c := rc.[mu]) in *. set (u := y.[mu]) in *.
  assert (0 < n * l) by nia.
  assert (Hu : -1 <= u) by (destruct (1 <? n); lia).
  rewrite Z.rem_mod_nonneg by nia.
  replace (u + c*l + n*l) with (c*l+u + 1*(n*l)) by ring. now rewrite Z.mod_add by lia.
Qed.

Definition labelled (rc : list Z) := label_all_sites g rc.

(** what label_all_sites leaves for the extended site y *)
Lemma label_spec rc y : in_box rc (nRanksDir g) -> ext_site g y -> (n_out g y <= 2)%nat ->
  let t := label_all_sites g rc in
  let i := fullLxOfCoords g y in
  let gl := glblxOfCoord g (true_glb g rc y) in
  glbCoordOfLoclx t i = Some (true_glb g rc y) /\
  (i < locVol g -> locCoordOfLoclx t i = Some y /\ glblxOfLoclx t i = Some gl) /\
  (locVol g <= i < locVol g + bordVol g ->
     glblxOfBordlx t (i - locVol g) = Some gl /\ loclxOfBordlx t (i - locVol g) = Some i) /\
  (locVol g + bordVol g <= i -> glblxOfEdgelx t (i - locVol g - bordVol g) = Some gl).
Proof.
  intros Hrc He Hn. cbn zeta.
  destruct (ext_site_coord y He) as (iv & Hiv & Eiv).
  assert (Hin : In iv (seqZ (volOfLx (extended_box_size g)))) by now apply in_seqZ.
  pose proof (fullLx_bounds g Hv y He Hn) as Hb.
  set (K := fun (cond : Z -> bool) (off : Z) ivol => let i := fullLxOfCoords g (ext_coord g ivol) in
     if (i =? -1) then None else if cond i then Some (i - off) else None).
  assert (Agree : forall b, In b (seqZ (volOfLx (extended_box_size g))) -> fullLxOfCoords g (ext_coord g b) <> -1 ->
     fullLxOfCoords g (ext_coord g b) = fullLxOfCoords g y -> ext_coord g b = y).
  { intros b Hb1 Hb2 Hb3. apply in_seqZ in Hb1. pose proof (ext_coord_site b Hb1) as Hbs.
    destruct (le_lt_dec (n_out g (ext_coord g b)) 2) as [Hle|Hgt].
    - apply (fullLx_inj g Hv); assumption.
    - exfalso. apply Hb2. now apply fullLx_none. }
  assert (KI : forall cond off, cond (fullLxOfCoords g y) = true -> K cond off iv = Some (fullLxOfCoords g y - off)).
  { intros cond off Hc. unfold K. rewrite Eiv, Hc. destruct (Z.eqb_spec (fullLxOfCoords g y) (-1)); [lia|reflexivity]. }
  assert (KA : forall cond off b, In b (seqZ (volOfLx (extended_box_size g))) ->
     K cond off b = Some (fullLxOfCoords g y - off) -> ext_coord g b = y).
  { intros cond off b Hb1 Hk. unfold K in Hk. destruct (Z.eqb_spec (fullLxOfCoords g (ext_coord g b)) (-1)) as [|Hne]; [discriminate|].
    destruct (cond (fullLxOfCoords g (ext_coord g b))); [|discriminate]. injection Hk as Hk. apply Agree; auto. lia. }
  unfold label_all_sites.
  split; [|split; [intros Hi; split|split; [intros Hi; split|intros Hi]]].
  - rewrite (fold_proj _ glbCoordOfLoclx (K (fun _ => true) 0) (fun v => glb_of_ext g rc (ext_coord g v))).
    + transitivity (Some ((fun v => glb_of_ext g rc (ext_coord g v)) iv)); [|cbv beta; now rewrite Eiv, (glb_of_ext_true rc y Hrc He)].
      replace (fullLxOfCoords g y) with (fullLxOfCoords g y - 0) by ring.
      apply (wfold_in (K (fun _ => true) 0) (fun v => glb_of_ext g rc (ext_coord g v))); [assumption|apply KI; reflexivity|].
      intros b Hb1 Hk. cbv beta. rewrite (KA _ _ _ Hb1 Hk), Eiv. reflexivity.
    + intros s a. unfold label_site, wstep, K. destruct (_ =? -1); [reflexivity|]. cbn. now rewrite Z.sub_0_r.
  - rewrite (fold_proj _ locCoordOfLoclx (K (fun i => i <? locVol g) 0) (fun v => ext_coord g v)).
    + transitivity (Some ((fun v => ext_coord g v) iv)); [|cbv beta; now rewrite Eiv].
      replace (fullLxOfCoords g y) with (fullLxOfCoords g y - 0) by ring.
      apply (wfold_in (K (fun i => i <? locVol g) 0) (fun v => ext_coord g v)); [assumption|apply KI; now apply Z.ltb_lt|].
      intros b Hb1 Hk. cbv beta. rewrite (KA _ _ _ Hb1 Hk), Eiv. reflexivity.
    + intros s a. unfold label_site, wstep, K. destruct (_ =? -1); [reflexivity|]. cbn. rewrite Z.sub_0_r. destruct (_ <? _); reflexivity.
  - rewrite (fold_proj _ glblxOfLoclx (K (fun i => i <? locVol g) 0) (fun v => glblxOfCoord g (glb_of_ext g rc (ext_coord g v)))).
    + transitivity (Some ((fun v => glblxOfCoord g (glb_of_ext g rc (ext_coord g v))) iv)); [|cbv beta; now rewrite Eiv, (glb_of_ext_true rc y Hrc He)].
      replace (fullLxOfCoords g y) with (fullLxOfCoords g y - 0) by ring.
      apply (wfold_in (K (fun i => i <? locVol g) 0) (fun v => glblxOfCoord g (glb_of_ext g rc (ext_coord g v)))); [assumption|apply KI; now apply Z.ltb_lt|].
      intros b Hb1 Hk. cbv beta. rewrite (KA _ _ _ Hb1 Hk), Eiv. reflexivity.
    + intros s a. unfold label_site, wstep, K. destruct (_ =? -1); [reflexivity|]. cbn. rewrite Z.sub_0_r. destruct (_ <? _); reflexivity.
  - set (cb := fun i => (locVol g <=? i) && (i <? locVol g + bordVol g)).
    rewrite (fold_proj _ glblxOfBordlx (K cb (locVol g)) (fun v => glblxOfCoord g (glb_of_ext g rc (ext_coord g v)))).
    + transitivity (Some ((fun v => glblxOfCoord g (glb_of_ext g rc (ext_coord g v))) iv)); [|cbv beta; now rewrite Eiv, (glb_of_ext_true rc y Hrc He)].
      apply (wfold_in (K cb (locVol g)) (fun v => glblxOfCoord g (glb_of_ext g rc (ext_coord g v)))); [assumption|apply KI; unfold cb; lia|].
      intros b Hb1 Hk. cbv beta. rewrite (KA _ _ _ Hb1 Hk), Eiv. reflexivity.
    + intros s a. unfold label_site, wstep, K. destruct (_ =? -1); [reflexivity|]. unfold cb. cbn. destruct (_ && _); reflexivity.
  - set (cb := fun i => (locVol g <=? i) && (i <? locVol g + bordVol g)).
    rewrite (fold_proj _ loclxOfBordlx (K cb (locVol g)) (fun v => fullLxOfCoords g (ext_coord g v))).
    + transitivity (Some ((fun v => fullLxOfCoords g (ext_coord g v)) iv)); [|cbv beta; now rewrite Eiv].
      apply (wfold_in (K cb (locVol g)) (fun v => fullLxOfCoords g (ext_coord g v))); [assumption|apply KI; unfold cb; lia|].
      intros b Hb1 Hk. cbv beta. rewrite (KA _ _ _ Hb1 Hk), Eiv. reflexivity.
    + intros s a. unfold label_site, wstep, K. destruct (_ =? -1); [reflexivity|]. unfold cb. cbn. destruct (_ && _); reflexivity.
  - set (cb := fun i => (locVol g + bordVol g <=? i)).
    rewrite (fold_proj _ glblxOfEdgelx (K cb (locVol g + bordVol g)) (fun v => glblxOfCoord g (glb_of_ext g rc (ext_coord g v)))).
    + transitivity (Some ((fun v => glblxOfCoord g (glb_of_ext g rc (ext_coord g v))) iv)); [|cbv beta; now rewrite Eiv, (glb_of_ext_true rc y Hrc He)].
      rewrite <- Z.sub_add_distr.
      apply (wfold_in (K cb (locVol g + bordVol g)) (fun v => glblxOfCoord g (glb_of_ext g rc (ext_coord g v)))); [assumption|apply KI; unfold cb; lia|].
      intros b Hb1 Hk. cbv beta. rewrite (KA _ _ _ Hb1 Hk), Eiv. reflexivity.
    + intros s a. unfold label_site, wstep, K. destruct (_ =? -1); [reflexivity|]. unfold cb. cbn. rewrite Z.sub_add_distr. destruct (_ <=? _); reflexivity.
Qed.

(** *** neighbours *)
Definition move (y : list Z) (mu : nat) (d : Z) : list Z := upd y mu (y.[mu] + d).

Lemma true_glb_nth rc y mu : in_box rc (nRanksDir g) -> length y = 4%nat -> (mu < 4)%nat ->
  (true_glb g rc y).[mu] = (rc.[mu] * (locSize g).[mu] + y.[mu]) mod (glbSize g).[mu].
Proof.
  intros Hrc Hl Hmu. unfold true_glb.
  pose proof (in_box_length _ _ Hrc) as Hrl. rewrite nr_len in Hrl.
  pose proof (loc_len g Hv). pose proof glb_len.
  rewrite !nth_map2 by len4. reflexivity.
Qed.

Lemma true_glb_length rc y : in_box rc (nRanksDir g) -> length y = 4%nat -> length (true_glb g rc y) = 4%nat.
Proof.
  intros Hrc Hl. unfold true_glb.
  pose proof (in_box_length _ _ Hrc) as Hrl. rewrite nr_len in Hrl.
  pose proof (loc_len g Hv). pose proof glb_len.
  len4.
Qed.

Lemma true_glb_box rc y : in_box rc (nRanksDir g) -> length y = 4%nat -> in_box (true_glb g rc y) (glbSize g).
Proof.
  intros Hrc Hl. apply in_box_nth. rewrite glb_len. split; [now apply true_glb_length|].
  intros mu Hmu. rewrite true_glb_nth by assumption. apply Z.mod_pos_bound.
  destruct (dir_facts mu Hmu) as (A & B & C). rewrite C. nia.
Qed.

(** coordinates relative to the rank, as computed by find_neighbouring_sites, agree modulo the lattice *)
Lemma rel_mod rc y mu d : in_box rc (nRanksDir g) -> length y = 4%nat -> (mu < 4)%nat ->
  let n := map (fun nu => (true_glb g rc y).[nu] - (locSize g).[nu] * rc.[nu]) dirs in
  map2 Z.modulo (upd n mu (n.[mu] + d)) (glbSize g) = map2 Z.modulo (move y mu d) (glbSize g).
Proof.
  intros Hrc Hl Hmu n. pose proof glb_len as HG.
  assert (Hn : length n = 4%nat) by reflexivity.
  apply list4_ext; [rewrite map2_length; rewrite upd_length; congruence|
                    rewrite map2_length; unfold move; rewrite upd_length; congruence|].
  intros nu Hnu. unfold move. rewrite !nth_map2 by len4.
  assert (E : forall k, (k < 4)%nat -> forall e, (n.[k] + e) mod (glbSize g).[k] = (y.[k] + e) mod (glbSize g).[k]).
  { intros k Hk e. unfold n. rewrite nth_map_dirs, true_glb_nth by assumption.
    destruct (dir_facts k Hk) as (A & B & C).
    set (l := (locSize g).[k]) in *. set (G := (glbSize g).[k]) in *.
    rewrite Zplus_mod, Zminus_mod, Zmod_mod, <- Zminus_mod, <- Zplus_mod. f_equal. ring. }
  destruct (Nat.eq_dec mu nu) as [->|Hne].
  - rewrite !nth_upd_eq by congruence. now apply E.
  - rewrite !nth_upd_neq by assumption. specialize (E nu Hnu 0). now rewrite !Z.add_0_r in E.
Qed.

Lemma true_glb_mod rc y z : in_box rc (nRanksDir g) -> length y = 4%nat -> length z = 4%nat ->
  map2 Z.modulo y (glbSize g) = map2 Z.modulo z (glbSize g) -> true_glb g rc y = true_glb g rc z.
Proof.
  intros Hrc Hy Hz E. apply list4_ext; [now apply true_glb_length|now apply true_glb_length|].
  intros mu Hmu. rewrite !true_glb_nth by assumption.
  pose proof glb_len as HG.
  assert (Em : y.[mu] mod (glbSize g).[mu] = z.[mu] mod (glbSize g).[mu]).
  { rewrite <- (nth_map2 Z.modulo y) by assumption. rewrite E. now apply nth_map2. }
  rewrite <- Zplus_mod_idemp_r, Em, Zplus_mod_idemp_r. reflexivity.
Qed.

Lemma true_glb_move rc y mu d : in_box rc (nRanksDir g) -> length y = 4%nat -> (mu < 4)%nat ->
  true_glb g rc (move y mu d) = periodic_shift (glbSize g) (true_glb g rc y) mu d.
Proof.
  intros Hrc Hy Hmu. unfold periodic_shift.
  assert (Hm : length (move y mu d) = 4%nat) by (unfold move; rewrite upd_length; assumption).
  apply list4_ext; [now apply true_glb_length|rewrite upd_length; now apply true_glb_length|].
  intros nu Hnu. rewrite true_glb_nth by assumption. unfold move.
  destruct (Nat.eq_dec mu nu) as [->|Hne].
  - rewrite !nth_upd_eq by (rewrite ?true_glb_length; congruence || assumption).
    rewrite true_glb_nth by assumption. rewrite Zplus_mod_idemp_l. f_equal. ring.
  - rewrite !nth_upd_neq by assumption. now rewrite true_glb_nth.
Qed.

(** inside the local box *)
Definition inside (y : list Z) (mu : nat) : bool := (0 <=? y.[mu]) && (y.[mu] <? (locSize g).[mu]).

Lemma n_out_count y : n_out g y = length (filter (fun mu => negb (inside y mu)) dirs).
Proof. reflexivity. Qed.

Lemma n_out_0 y : n_out g y = O <-> forall mu, (mu < 4)%nat -> 0 <= y.[mu] < (locSize g).[mu].
Proof.
  rewrite n_out_count. split.
  - intros H mu Hmu. assert (E : inside y mu = true).
    { destruct (inside y mu) eqn:E; [reflexivity|]. exfalso.
      assert (In mu (filter (fun m => negb (inside y m)) dirs)).
      { apply filter_In. split; [|rewrite E; reflexivity]. unfold dirs. cbn. lia. }
      destruct (filter _ _); [contradiction|discriminate]. }
    unfold inside in E. lia.
  - intros H. unfold dirs. cbn [filter]. 
    assert (K : forall m, (m < 4)%nat -> inside y m = true) by (intros m Hm; specialize (H m Hm); unfold inside; lia).
    rewrite !K by lia. reflexivity.
Qed.

Lemma n_out_move_le y mu d : length y = 4%nat -> (mu < 4)%nat -> (n_out g (move y mu d) <= S (n_out g y))%nat.
Proof.
  intros Hl Hmu. rewrite !n_out_count. unfold dirs. cbn [filter].
  assert (K : forall m, m <> mu -> inside (move y mu d) m = inside y m).
  { intros m Hm. unfold inside, move. rewrite nth_upd_neq by auto. reflexivity. }
  destruct mu as [|[|[|[|]]]]; try lia.
  - rewrite (K 1%nat), (K 2%nat), (K 3%nat) by lia. destruct (inside (move y 0 d) 0), (inside y 0), (inside y 1), (inside y 2), (inside y 3); cbn; lia.
  - rewrite (K 0%nat), (K 2%nat), (K 3%nat) by lia. destruct (inside (move y 1 d) 1), (inside y 0), (inside y 1), (inside y 2), (inside y 3); cbn; lia.
  - rewrite (K 0%nat), (K 1%nat), (K 3%nat) by lia. destruct (inside (move y 2 d) 2), (inside y 0), (inside y 1), (inside y 2), (inside y 3); cbn; lia.
  - rewrite (K 0%nat), (K 1%nat), (K 2%nat) by lia. destruct (inside (move y 3 d) 3), (inside y 0), (inside y 1), (inside y 2), (inside y 3); cbn; lia.
Qed.

Lemma n_out_upd_le y mu v : length y = 4%nat -> (mu < 4)%nat -> (n_out g (upd y mu v) <= S (n_out g y))%nat.
Proof.
  intros Hl Hmu. replace (upd y mu v) with (move y mu (v - y.[mu])); [now apply n_out_move_le|].
  unfold move. f_equal. ring.
Qed.

Lemma n_out_upd_out y mu v : length y = 4%nat -> (mu < 4)%nat -> inside y mu = false -> (n_out g (upd y mu v) <= n_out g y)%nat.
Proof.
  intros Hl Hmu Hi. rewrite !n_out_count. unfold dirs. cbn [filter].
  assert (K : forall m, m <> mu -> inside (upd y mu v) m = inside y m).
  { intros m Hm. unfold inside. rewrite nth_upd_neq by auto. reflexivity. }
  destruct mu as [|[|[|[|]]]]; try lia.
  - rewrite (K 1%nat), (K 2%nat), (K 3%nat) by lia. rewrite Hi. destruct (inside (upd y 0 v) 0), (inside y 1), (inside y 2), (inside y 3); cbn; lia.
  - rewrite (K 0%nat), (K 2%nat), (K 3%nat) by lia. rewrite Hi. destruct (inside (upd y 1 v) 1), (inside y 0), (inside y 2), (inside y 3); cbn; lia.
  - rewrite (K 0%nat), (K 1%nat), (K 3%nat) by lia. rewrite Hi. destruct (inside (upd y 2 v) 2), (inside y 0), (inside y 1), (inside y 3); cbn; lia.
  - rewrite (K 0%nat), (K 1%nat), (K 2%nat) by lia. rewrite Hi. destruct (inside (upd y 3 v) 3), (inside y 0), (inside y 1), (inside y 2); cbn; lia.
Qed.

Lemma n_out_upd_in y mu v : length y = 4%nat -> (mu < 4)%nat -> 0 <= v < (locSize g).[mu] -> (n_out g (upd y mu v) <= n_out g y)%nat.
Proof.
  intros Hl Hmu Hi. rewrite !n_out_count. unfold dirs. cbn [filter].
  assert (K : forall m, m <> mu -> inside (upd y mu v) m = inside y m).
  { intros m Hm. unfold inside. rewrite nth_upd_neq by auto. reflexivity. }
  assert (Hii : inside (upd y mu v) mu = true) by (unfold inside; rewrite nth_upd_eq by congruence; lia).
  destruct mu as [|[|[|[|]]]]; try lia; rewrite Hii.
  - rewrite (K 1%nat), (K 2%nat), (K 3%nat) by lia. destruct (inside y 0), (inside y 1), (inside y 2), (inside y 3); cbn; lia.
  - rewrite (K 0%nat), (K 2%nat), (K 3%nat) by lia. destruct (inside y 0), (inside y 1), (inside y 2), (inside y 3); cbn; lia.
  - rewrite (K 0%nat), (K 1%nat), (K 3%nat) by lia. destruct (inside y 0), (inside y 1), (inside y 2), (inside y 3); cbn; lia.
  - rewrite (K 0%nat), (K 1%nat), (K 2%nat) by lia. destruct (inside y 0), (inside y 1), (inside y 2), (inside y 3); cbn; lia.
Qed.

Lemma ext_upd y mu v : ext_site g y -> (mu < 4)%nat ->
  (if 1 <? (nRanksDir g).[mu] then -1 <= v <= (locSize g).[mu] else 0 <= v < (locSize g).[mu]) ->
  ext_site g (upd y mu v).
Proof.
  intros [Hl Hy] Hmu Hvv. split; [now rewrite upd_length|]. intros nu Hnu.
  destruct (Nat.eq_dec mu nu) as [->|Hne].
  - rewrite nth_upd_eq by congruence. assumption.
  - rewrite nth_upd_neq by assumption. now apply Hy.
Qed.

Lemma mod_upd y mu v w : length y = 4%nat -> (mu < 4)%nat -> v mod (glbSize g).[mu] = w mod (glbSize g).[mu] ->
  map2 Z.modulo (upd y mu v) (glbSize g) = map2 Z.modulo (upd y mu w) (glbSize g).
Proof.
  intros Hl Hmu E. pose proof glb_len as HG.
  apply list4_ext; [rewrite map2_length; rewrite upd_length; congruence..|].
  intros nu Hnu. rewrite !nth_map2 by len4.
  destruct (Nat.eq_dec mu nu) as [->|Hne].
  - rewrite !nth_upd_eq by congruence. assumption.
  - now rewrite !nth_upd_neq by assumption.
Qed.

Lemma find_none_all {A} (f : A -> bool) l : (forall a, In a l -> f a = false) -> find f l = None.
Proof.
  induction l as [|a l IH]; intros H; cbn [find]; [reflexivity|].
  rewrite (H a) by now left. apply IH. intros b Hb. apply H. now right.
Qed.

(** two steps outside in one direction and inside in the others: not labelled *)
Lemma fullLx_deep y mu : length y = 4%nat -> (mu < 4)%nat ->
  (locSize g).[mu] < y.[mu] mod (glbSize g).[mu] < (glbSize g).[mu] - 1 ->
  (forall nu, (nu < 4)%nat -> nu <> mu -> 0 <= y.[nu] < (locSize g).[nu]) ->
  fullLxOfCoords g y = -1.
Proof.
  intros Hl Hmu Hd Ho. unfold fullLxOfCoords. pose proof glb_len as HG.
  set (x := map2 Z.modulo y (glbSize g)).
  assert (Hx : forall nu, (nu < 4)%nat -> x.[nu] = y.[nu] mod (glbSize g).[nu]) by (intros nu Hnu; now apply nth_map2).
  assert (Hb : forall nu, (nu < 4)%nat -> is_bord g x nu = 0).
  { intros nu Hnu. unfold is_bord, isDirParallel. rewrite Hx by assumption.
    destruct (dir_facts nu Hnu) as (H2 & Hn & HGG).
    destruct (Z.ltb_spec 1 (nRanksDir g).[nu]) as [Hp|Hp]; [|reflexivity].
    destruct (Nat.eq_dec nu mu) as [->|Hne].
    - destruct (Z.eqb_spec (y.[mu] mod (glbSize g).[mu]) (locSize g).[mu]); [lia|].
      destruct (Z.eqb_spec (y.[mu] mod (glbSize g).[mu]) ((glbSize g).[mu] - 1)); [lia|reflexivity].
    - specialize (Ho nu Hnu Hne). assert ((locSize g).[nu] * 2 <= (glbSize g).[nu]) by nia.
      rewrite Z.mod_small by lia.
      destruct (Z.eqb_spec y.[nu] (locSize g).[nu]); [lia|].
      destruct (Z.eqb_spec y.[nu] ((glbSize g).[nu] - 1)); [lia|reflexivity]. }
  assert (Hin : forall d, In d dirs -> (d < 4)%nat) by (intros d Hd'; unfold dirs in Hd'; cbn in Hd'; lia).
  assert (Hf : forallb (fun m => (0 <=? x.[m]) && (x.[m] <? (locSize g).[m])) dirs = false).
  { destruct (forallb _ dirs) eqn:E; [|reflexivity]. rewrite forallb_forall in E.
    specialize (E mu ltac:(unfold dirs; cbn; lia)). rewrite Hx in E by assumption. lia. }
  rewrite Hf.
  rewrite find_none_all.
  2:{ intros d Hd'. unfold is_one_bord. rewrite Hb by auto. reflexivity. }
  rewrite find_none_all; [reflexivity|].
  intros [d inu] Hd'. apply in_prod_iff in Hd' as [Hd' _]. unfold is_edge_pair. rewrite Hb by auto. reflexivity.
Qed.

(** a step in a direction where the site is inside (or inward) lands on a stored site *)
Lemma step_stored y mu d : ext_site g y -> (n_out g y <= 1)%nat -> (mu < 4)%nat -> (d = 1 \/ d = -1) ->
  (exists z, ext_site g z /\ (n_out g z <= 2)%nat /\
     map2 Z.modulo z (glbSize g) = map2 Z.modulo (move y mu d) (glbSize g)) \/
  (inside y mu = false /\ fullLxOfCoords g (move y mu d) = -1).
Proof.
  intros He Hn Hmu Hd. destruct (dir_facts mu Hmu) as (H2 & Hnn & HG). pose proof He as [Hl Hy].
  specialize (Hy mu Hmu).
  destruct (1 <? (nRanksDir g).[mu]) eqn:Ep.
  - apply Z.ltb_lt in Ep.
    destruct (Z_le_dec (-1) (y.[mu]+d)) as [Ha|Ha]; [destruct (Z_le_dec (y.[mu]+d) (locSize g).[mu]) as [Hb|Hb]|].
    + left. exists (move y mu d). split; [|split; [|reflexivity]].
      * apply ext_upd; [assumption..|]. apply Z.ltb_lt in Ep. rewrite Ep. lia.
      * pose proof (n_out_move_le y mu d Hl Hmu). lia.
    + (* forward border, stepping outward *)
      assert (Ey : y.[mu] = (locSize g).[mu]) by lia. assert (d = 1) by lia. subst d.
      assert (Hout : inside y mu = false) by (unfold inside; lia).
      destruct (Z.eq_dec (glbSize g).[mu] ((locSize g).[mu] + 2)) as [Eg|Ng].
      * left. exists (upd y mu (-1)). split; [|split].
        -- apply ext_upd; [assumption..|]. apply Z.ltb_lt in Ep. rewrite Ep. lia.
        -- pose proof (n_out_upd_out y mu (-1) Hl Hmu Hout). lia.
        -- apply mod_upd; [assumption..|]. rewrite Ey. replace ((locSize g).[mu] + 1) with (-1 + 1 * (glbSize g).[mu]) by lia.
           rewrite Z.mod_add by lia. reflexivity.
      * right. split; [assumption|]. 
        apply fullLx_deep with (mu:=mu); [unfold move; now rewrite upd_length|assumption| |]. { unfold move. rewrite nth_upd_eq by congruence. rewrite Ey. rewrite Z.mod_small by nia. nia. }
        intros nu Hnu Hne. unfold move. rewrite nth_upd_neq by auto. clear - Hn Hout Hnu Hne Hl Hmu.
        assert (K : inside y nu = true).
        { destruct (inside y nu) eqn:E; [reflexivity|]. exfalso. rewrite n_out_count in Hn. unfold dirs in Hn.
          destruct mu as [|[|[|[|]]]], nu as [|[|[|[|]]]]; try lia; cbn [filter] in Hn; rewrite Hout, E in Hn;
          repeat match goal with H : context [negb (inside y ?m)] |- _ => destruct (inside y m) end; cbn in Hn; lia. }
        unfold inside in K. lia.
    + assert (Ey : y.[mu] = -1) by lia. assert (d = -1) by lia. subst d.
      assert (Hout : inside y mu = false) by (unfold inside; lia).
      destruct (Z.eq_dec (glbSize g).[mu] ((locSize g).[mu] + 2)) as [Eg|Ng].
      * left. exists (upd y mu (locSize g).[mu]). split; [|split].
        -- apply ext_upd; [assumption..|]. apply Z.ltb_lt in Ep. rewrite Ep. lia.
        -- pose proof (n_out_upd_out y mu (locSize g).[mu] Hl Hmu Hout). lia.
        -- apply mod_upd; [assumption..|]. rewrite Ey. replace (locSize g).[mu] with (-1 + -1 + 1 * (glbSize g).[mu]) at 1 by lia.
           rewrite Z.mod_add by lia. reflexivity.
      * right. split; [assumption|].
        apply fullLx_deep with (mu:=mu); [unfold move; now rewrite upd_length|assumption| |].
        { unfold move. rewrite nth_upd_eq by congruence. rewrite Ey. 
          assert (E2 : (-1 + -1) mod (glbSize g).[mu] = (glbSize g).[mu] - 2).
          { symmetry. apply Z.mod_unique_pos with (q := -1); nia. } rewrite E2. nia. }
        intros nu Hnu Hne. unfold move. rewrite nth_upd_neq by auto. clear - Hn Hout Hnu Hne Hl Hmu.
        assert (K : inside y nu = true).
        { destruct (inside y nu) eqn:E; [reflexivity|]. exfalso. rewrite n_out_count in Hn. unfold dirs in Hn.
          destruct mu as [|[|[|[|]]]], nu as [|[|[|[|]]]]; try lia; cbn [filter] in Hn; rewrite Hout, E in Hn;
          repeat match goal with H : context [negb (inside y ?m)] |- _ => destruct (inside y m) end; cbn in Hn; lia. }
        unfold inside in K. lia.
  - apply Z.ltb_ge in Ep. left.
    assert (En : (nRanksDir g).[mu] = 1) by lia. rewrite En, Z.mul_1_l in HG.
    exists (upd y mu ((y.[mu] + d) mod (glbSize g).[mu])). 
    pose proof (Z.mod_pos_bound (y.[mu] + d) (glbSize g).[mu] ltac:(lia)).
    split; [|split].
    + apply ext_upd; [assumption..|]. destruct (Z.ltb_spec 1 (nRanksDir g).[mu]); lia.
    + pose proof (n_out_upd_in y mu ((y.[mu] + d) mod (glbSize g).[mu]) Hl Hmu). lia.
    + apply mod_upd; [assumption..|]. now rewrite Zmod_mod.
Qed.
End G.
