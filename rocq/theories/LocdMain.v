(** Remapping making one direction local, and the topological correlator remapping *)
From Verif Require Import Base GeometryModel GeometrySpec GeometryProofs OwnerProofs LabelProofs HaloProofs Geometry_final
  AllToAllModel AllToAllSpec AllToAllMain AllToAllSetup AllToAllRemap IldgModel IldgProofs RemapMain.

Definition others (mu : nat) : list nat := filter (fun nu => negb (nu =? mu)%nat) dirs.

Lemma perp_fold g mu c : forall L o, fold_left (perp_step g mu c) L o = fold_left (ildg_step g c) (filter (fun nu => negb (nu =? mu)%nat) L) o.
Proof. induction L as [|a L IH]; intros o; [reflexivity|]. cbn [fold_left filter]. unfold perp_step at 2. destruct (a =? mu)%nat; cbn [negb]; apply IH. Qed.
Lemma unperp_fold g mu : forall L o, fold_left (unperp_step g mu) L o = fold_left (unildg_step g) (filter (fun nu => negb (nu =? mu)%nat) L) o.
Proof. induction L as [|a L IH]; intros o; [reflexivity|]. cbn [fold_left filter]. unfold unperp_step at 2. destruct (a =? mu)%nat; cbn [negb]; apply IH. Qed.
Lemma others_rev mu : filter (fun nu => negb (nu =? mu)%nat) (rev dirs) = rev (others mu).
Proof. unfold others, dirs. cbn [rev app filter]. destruct mu as [|[|[|[|m]]]]; reflexivity. Qed.
Lemma others_in mu nu : In nu (others mu) <-> (nu < 4)%nat /\ nu <> mu.
Proof. unfold others. rewrite filter_In. unfold dirs. cbn [In]. destruct (Nat.eqb_spec nu mu); cbn [negb]; intuition (try lia; try congruence). Qed.
Lemma others_nodup mu : NoDup (others mu).
Proof. apply NoDup_filter. unfold dirs. repeat constructor; cbn; lia. Qed.

(** ** When the elements that stay on the rank are copied right *)
Lemma seqZ_app a b : 0 <= a -> 0 <= b -> seqZ (a + b) = seqZ a ++ map (fun i => a + i) (seqZ b).
Proof.
  intros Ha Hb. unfold seqZ. rewrite Z2Nat.inj_add, seq_app, map_app by lia. f_equal. cbn [Nat.add].
  rewrite <- (Nat.add_0_r (Z.to_nat a)) at 1. rewrite map_map.
  assert (G : forall k, map Z.of_nat (seq (Z.to_nat a + k) (Z.to_nat b)) = map (fun x => a + Z.of_nat x) (seq k (Z.to_nat b))).
  { induction (Z.to_nat b) as [|m IH]; intros k; [reflexivity|]. cbn [seq map]. f_equal; [lia|]. rewrite <- IH. f_equal. f_equal. lia. }
  apply G.
Qed.
Lemma local_right_ext N (m m' : Z -> Z -> Z) r : (forall a b, 0 <= a < N -> 0 <= b < N -> m a b = m' a b) -> 0 <= r < N -> local_part_right N m r -> local_part_right N m' r.
Proof.
  intros E Hr H. unfold local_part_right in *. rewrite <- (E r r) by assumption. intros H0. rewrite <- H by assumption. f_equal.
  - f_equal. apply map_ext_in. intros q Hq. apply in_seqZ in Hq. symmetry. now apply E.
  - f_equal. apply filter_ext_in. intros q Hq. apply in_seqZ in Hq. rewrite E; [reflexivity|lia|lia].
Qed.
Lemma sum_const_or_0 c (t : Z -> Z) : forall l, (forall q, In q l -> t q = 0 \/ t q = c) -> sumZ (map t l) = c * Z.of_nat (length (filter (fun q => negb (t q =? 0)) l)).
Proof.
  induction l as [|a l IH]; intros H; [cbn; lia|]. cbn [map sumZ fold_right filter]. fold (sumZ (map t l)). rewrite IH by (intros; apply H; now right).
  destruct (Z.eqb_spec (t a) 0) as [Ea|Ea]; cbn [negb length]; [lia|]. destruct (H a (or_introl eq_refl)); lia.
Qed.
Lemma filter_all_const c : forall l, (forall x : Z, In x l -> x = 0 \/ x = c) -> filter (fun n => negb (n =? 0)) l = repeat c (length (filter (fun n => negb (n =? 0)) l)).
Proof.
  induction l as [|a l IH]; intros H; [reflexivity|]. cbn [filter]. destruct (Z.eqb_spec a 0) as [Ea|Ea]; cbn [negb]; [apply IH; intros; apply H; now right|].
  cbn [length repeat]. f_equal; [destruct (H a (or_introl eq_refl)); lia|]. apply IH. intros; apply H; now right.
Qed.
Lemma local_right_const N (m : Z -> Z -> Z) c r : 0 <= r < N -> (forall q, 0 <= q < N -> (m r q = 0 \/ m r q = c) /\ (m q r = 0 \/ m q r = c)) ->
  sumZ (map (m r) (seqZ N)) = sumZ (map (fun q => m q r) (seqZ N)) -> local_part_right N m r.
Proof.
  intros Hr Hc Hs H0. assert (Hmr : m r r = c) by (destruct (proj1 (Hc r Hr)); congruence). rewrite Hmr in H0 |- *.
  rewrite (sum_const_or_0 c (m r)) in Hs by (intros q Hq; apply in_seqZ in Hq; now apply Hc).
  rewrite (sum_const_or_0 c (fun q => m q r)) in Hs by (intros q Hq; apply in_seqZ in Hq; now apply Hc).
  assert (El : length (filter (fun q => negb (m r q =? 0)) (seqZ N)) = length (filter (fun q => negb (m q r =? 0)) (seqZ N))) by nia.
  assert (Er : length (filter (fun n => negb (n =? 0)) (map (m r) (seqZ N))) = length (filter (fun q => negb (m r q =? 0)) (seqZ N))).
  { generalize (seqZ N). intros l. induction l as [|a l IH]; [reflexivity|]. cbn [map filter]. destruct (negb (m r a =? 0)); cbn [length]; now rewrite IH. }
  rewrite (filter_all_const c). 2:{ intros x Hx. apply in_map_iff in Hx as (q & <- & Hq). apply in_seqZ in Hq. now apply Hc. }
  rewrite Er, El. apply nth_error_repeat.
  assert (Es : exists l, seqZ N = seqZ r ++ r :: l).
  { replace N with (r + (N - r)) by lia. rewrite seqZ_app by lia. destruct (Z.to_nat (N - r)) as [|k] eqn:Ek; [lia|].
    unfold seqZ at 2. rewrite Ek. cbn [seq map]. rewrite Z.add_0_r. eexists. reflexivity. }
  destruct Es as [l ->]. rewrite filter_app, app_length. cbn [filter]. rewrite Hmr. replace (c =? 0) with false by lia. cbn [negb length]. lia.
Qed.

Section Locd.
Context (g : grid) (Hv : valid_grid g = true) (Hf : glb_fits_int g) (mu : nat) (Hmu : (mu < 4)%nat).
Let N := nranks g.
Let M := max_locd_perp_size g mu.
Let Gm := (glbSize g).[mu].
Definition perp_pos (x : list Z) : Z := row_major (sel_dirs (others mu) x) (sel_dirs (others mu) (glbSize g)).

Lemma perp_prod : prodZ (sel_dirs (others mu) (glbSize g)) * Gm = prodZ (glbSize g).
Proof.
  destruct (length4 _ (glb_len g Hv)) as (A & B & C & D & EG). unfold Gm. rewrite EG.
  destruct mu as [|[|[|[|m]]]]; [| | | |lia]; cbn [others dirs filter negb Nat.eqb sel_dirs map nth prodZ fold_right]; ring.
Qed.
Lemma Gm_pos : 2 <= Gm.
Proof.
  unfold Gm. destruct (valid_grid_inv g Hv) as (n0&n1&n2&n3&l0&l1&l2&l3&->&_&?&?). cbn [glbSize].
  destruct mu as [|[|[|[|m]]]]; [| | | |lia]; cbn [nth]; nia.
Qed.
Lemma perp_vol_eq : perp_vol g mu = prodZ (sel_dirs (others mu) (glbSize g)) /\ 0 < perp_vol g mu.
Proof.
  unfold perp_vol, glbVol. rewrite volOfLx_prodZ, <- perp_prod. fold Gm. pose proof Gm_pos. rewrite Z.quot_mul by lia. split; [reflexivity|].
  pose proof (prodZ_pos _ (glbSize_pos g Hv)). rewrite <- perp_prod in *. nia.
Qed.
Lemma M_spec : 0 < M /\ perp_vol g mu <= N * M /\ perp_vol g mu + N - 1 >= N * M.
Proof.
  destruct (glbVol_split g Hv) as (_ & HN & _). destruct perp_vol_eq as [_ Hp]. unfold M, max_locd_perp_size. fold N. fold N in HN.
  rewrite Z.quot_div_nonneg by lia. pose proof (Z.div_mod (perp_vol g mu + N - 1) N). pose proof (Z.mod_pos_bound (perp_vol g mu + N - 1) N HN).
  set (q := (perp_vol g mu + N - 1) / N) in *. assert (0 < q) by nia. nia.
Qed.
Lemma oth_in : forall nu, In nu (others mu) -> (nu < length (glbSize g))%nat.
Proof. intros nu H. rewrite (glb_len g Hv). apply others_in in H. tauto. Qed.
Lemma perp_bounds x : in_box x (glbSize g) -> 0 <= perp_pos x < perp_vol g mu.
Proof. intros Hx. rewrite (proj1 perp_vol_eq). apply row_major_bounds, sel_box; [assumption|]. exact oth_in. Qed.
Lemma xmu_bounds x : in_box x (glbSize g) -> 0 <= x.[mu] < Gm.
Proof. intros Hx. apply in_box_nth in Hx as [_ Hx]. apply Hx. now rewrite (glb_len g Hv). Qed.

Lemma make_spec r i x : glb_coords g r i = Some x -> in_box x (glbSize g) ->
  locd_make g mu r i = Some (perp_pos x / M, perp_pos x mod M * Gm + x.[mu]).
Proof.
  intros Hx Hb. unfold locd_make. cbv zeta. rewrite Hx, perp_fold. fold (others mu).
  pose proof perp_prod. pose proof Gm_pos. pose proof (prodZ_pos _ (glbSize_pos g Hv)) as Hp.
  rewrite (enc_dirs g x Hb (others mu) oth_in).
  2:{ unfold glb_fits_int in Hf. nia. }
  fold (perp_pos x). pose proof (perp_bounds x Hb) as Hpb. pose proof M_spec as (HM & HM1 & _). fold M Gm.
  rewrite Z.quot_div_nonneg by lia.
  assert (Hq : 0 <= perp_pos x / M <= perp_pos x) by (split; [apply Z.div_pos; lia|apply Z.div_le_upper_bound; nia]).
  pose proof (proj1 perp_vol_eq). unfold glb_fits_int in Hf.
  rewrite wrap32_id by (unfold in_int, int_min, int_max in *; nia).
  do 2 f_equal. rewrite (Z.mul_comm (perp_pos x / M)). rewrite <- Z.mod_eq by lia. reflexivity.
Qed.
Lemma coords_ext x y : in_box x (glbSize g) -> in_box y (glbSize g) -> perp_pos x = perp_pos y -> x.[mu] = y.[mu] -> x = y.
Proof.
  intros Hx Hy E Em.
  assert (H : sel_dirs (others mu) x = sel_dirs (others mu) y).
  { apply (row_major_inj (sel_dirs (others mu) (glbSize g))); try assumption; apply sel_box; try assumption; exact oth_in. }
  apply list_eq_nth; [now rewrite (in_box_length _ _ Hx), (in_box_length _ _ Hy)|].
  intros m Hm. rewrite (in_box_length _ _ Hy), (glb_len g Hv) in Hm. destruct (Nat.eq_dec m mu) as [->|Hne]; [assumption|].
  assert (Hin : In m (others mu)) by (apply others_in; tauto). clear -H Hin. unfold sel_dirs in H.
  induction (others mu) as [|a l IH]; [contradiction|]. cbn [map] in H. injection H as H1 H2. destruct Hin as [->|Hin]; [assumption|now apply IH].
Qed.
Lemma unmake_spec q j x : 0 <= q -> 0 <= j -> in_box x (glbSize g) -> perp_pos x = q * M + j / Gm -> x.[mu] = j mod Gm ->
  locd_unmake g mu q j = getLoclxAndRankOfCoords g x.
Proof.
  intros Hq Hj Hx E Em. unfold locd_unmake. fold Gm M. pose proof Gm_pos. rewrite Z.quot_div_nonneg, Z.rem_mod_nonneg by lia.
  rewrite unperp_fold, others_rev. rewrite (Z.add_comm (j / Gm)), <- E, <- Em. unfold perp_pos.
  destruct (dec_dirs g x Hx (others mu) oth_in (others_nodup mu) (upd [0;0;0;0] mu x.[mu])) as [H1 H2].
  { rewrite upd_length, (glb_len g Hv). reflexivity. }
  f_equal. apply list_eq_nth; [rewrite H1; symmetry; now apply in_box_length|].
  intros m Hm. rewrite (in_box_length _ _ Hx), (glb_len g Hv) in Hm. rewrite H2.
  destruct (in_dec Nat.eq_dec m (others mu)) as [|Hn]; [reflexivity|].
  assert (m = mu) by (destruct (Nat.eq_dec m mu); [assumption|exfalso; apply Hn, others_in; tauto]). subst m. apply nth_upd_eq. cbn. lia.
Qed.
Lemma perp_onto p c : 0 <= p < perp_vol g mu -> 0 <= c < Gm -> exists x, in_box x (glbSize g) /\ perp_pos x = p /\ x.[mu] = c.
Proof.
  intros Hp Hc. rewrite (proj1 perp_vol_eq) in Hp. set (sG := sel_dirs (others mu) (glbSize g)) in *.
  assert (HsG : Forall (fun n => 0 < n) sG).
  { apply Forall_forall. intros n Hn. unfold sG, sel_dirs in Hn. apply in_map_iff in Hn as (nu & <- & Hnu). apply oth_in in Hnu.
    pose proof (glbSize_pos g Hv) as H. rewrite Forall_forall in H. apply H. now apply nth_In. }
  pose proof (coordOfLx_in_box p sG HsG Hp) as Hb. pose proof (lxOfCoord_coordOfLx p sG HsG Hp) as E.
  assert (Hl : length (coordOfLx p sG) = 3%nat) by (rewrite coordOfLx_length; unfold sG; rewrite sel_len; clear - Hmu; destruct mu as [|[|[|[|m]]]]; try lia; reflexivity).
  rewrite lxOfCoord_row_major in E by (rewrite coordOfLx_length; reflexivity).
  destruct (coordOfLx p sG) as [|a [|b [|d [|]]]]; try discriminate Hl.
  destruct (length4 _ (glb_len g Hv)) as (A & B & C & D & EG). unfold sG, perp_pos, Gm in *. rewrite EG in *. clear - Hb E Hmu Hc.
  destruct mu as [|[|[|[|m]]]]; [| | | |lia]; cbn [others dirs filter negb Nat.eqb sel_dirs map nth] in *;
    unfold in_box in Hb; inversion Hb as [|? ? ? ? Ha Hb1]; subst; inversion Hb1 as [|? ? ? ? Hbb Hb2]; subst; inversion Hb2 as [|? ? ? ? Hd _]; subst.
  - exists [c;a;b;d]. split; [apply in_box4; tauto|]. split; reflexivity.
  - exists [a;c;b;d]. split; [apply in_box4; tauto|]. split; reflexivity.
  - exists [a;b;c;d]. split; [apply in_box4; tauto|]. split; reflexivity.
  - exists [a;b;d;c]. split; [apply in_box4; tauto|]. split; reflexivity.
Qed.

Lemma locd_size_in q j : 0 <= q -> 0 <= j -> (j < locd_size g mu q <-> j / Gm < M /\ q * M + j / Gm < perp_vol g mu).
Proof.
  intros Hq Hj. unfold locd_size, locd_perp_size. fold M Gm. pose proof Gm_pos.
  assert (H1 : forall k, j < k * Gm <-> j / Gm < k).
  { intros k. pose proof (Z.div_mod j Gm). pose proof (Z.mod_pos_bound j Gm). split; intros; nia. }
  rewrite H1. lia.
Qed.

Theorem locd_main :
  (forall r i, 0 <= r < nranks g -> 0 <= i < locVol g ->
     exists x q j, glb_coords g r i = Some x /\ locd_make g mu r i = Some (q, j) /\ 0 <= q < nranks g /\ 0 <= j < locd_size g mu q /\
       j mod (glbSize g).[mu] = x.[mu] /\
       q * max_locd_perp_size g mu + j / (glbSize g).[mu] = row_major (map (fun nu => x.[nu]) (others mu)) (map (fun nu => (glbSize g).[nu]) (others mu)) /\
       locd_unmake g mu q j = (r, i)) /\
  (forall q j, 0 <= q < nranks g -> 0 <= j < locd_size g mu q ->
     exists r i, locd_unmake g mu q j = (r, i) /\ 0 <= r < nranks g /\ 0 <= i < locVol g /\ locd_make g mu r i = Some (q, j)).
Proof.
  pose proof Gm_pos as HG. pose proof M_spec as (HM & HM1 & HM2). split.
  - intros r i Hr Hi. destruct (site_coords g r i Hv Hr Hi) as (x & Hc & Hb & Ho).
    pose proof (perp_bounds x Hb) as Hpb. pose proof (xmu_bounds x Hb) as Hxm.
    exists x, (perp_pos x / M), (perp_pos x mod M * Gm + x.[mu]). split; [exact Hc|]. split; [now apply make_spec|].
    pose proof (Z.mod_pos_bound (perp_pos x) M HM). pose proof (Z.div_mod (perp_pos x) M).
    assert (Hq : 0 <= perp_pos x / M < nranks g) by (split; [apply Z.div_pos; lia|apply Z.div_lt_upper_bound; fold N; lia]).
    assert (Ej : (perp_pos x mod M * Gm + x.[mu]) / Gm = perp_pos x mod M) by (rewrite Z.div_add_l, Z.div_small by lia; lia).
    assert (Em : (perp_pos x mod M * Gm + x.[mu]) mod Gm = x.[mu]) by (rewrite Z.add_comm, Z.mod_add, Z.mod_small by lia; reflexivity).
    split; [exact Hq|]. split; [|split; [exact Em|split]].
    + split; [nia|]. apply locd_size_in; [lia|nia|]. rewrite Ej. lia.
    + fold Gm M. rewrite Ej. change (row_major _ _) with (perp_pos x). lia.
    + rewrite <- Ho. apply unmake_spec; [lia|nia|assumption| |]; rewrite ?Ej, ?Em; lia.
  - intros q j Hq Hj. assert (Hj' := Hj). destruct Hj' as [Hj0 Hj1]. apply locd_size_in in Hj1 as [Hj1 Hj2]; [|lia|lia].
    assert (Hjd : 0 <= j / Gm) by (apply Z.div_pos; lia).
    destruct (perp_onto (q * M + j / Gm) (j mod Gm)) as (x & Hx & Ep & Em); [nia|apply Z.mod_pos_bound; lia|].
    pose proof (unmake_spec q j x ltac:(lia) Hj0 Hx Ep Em) as Hu.
    destruct (getLoclxAndRankOfCoords g x) as [r i] eqn:Eo.
    destruct (owner_fwd g x Hv Hx r i Eo) as (Hr & Hi & _). exists r, i. split; [exact Hu|]. split; [exact Hr|]. split; [exact Hi|].
    destruct (site_coords g r i Hv Hr Hi) as (x' & Hc & Hb & Ho). assert (x' = x) by (apply (owner_inj g); congruence). subst x'.
    rewrite (make_spec r i x Hc Hx), Ep, Em. rewrite Z.div_add_l, Z.div_small by lia. rewrite (Z.add_comm (q * M)), Z.mod_add, Z.mod_small by lia.
    do 2 f_equal; [lia|]. pose proof (Z.div_mod j Gm). lia.
Qed.

(** when the number of ranks divides the number of lines all the ranks hold locVol elements *)
Lemma locd_size_div : Z.rem (perp_vol g mu) N = 0 -> forall q, 0 <= q < N -> locd_size g mu q = locVol g.
Proof.
  intros Hd q Hq. pose proof M_spec as (HM & HM1 & HM2). destruct (glbVol_split g Hv) as (E & HN & Hn). fold N in E, HN.
  pose proof (Z.quot_rem' (perp_vol g mu) N) as Hq0. rewrite Hd in Hq0. set (k := Z.quot (perp_vol g mu) N) in *.
  assert (EM : M = k) by nia.
  assert (Ep : perp_vol g mu * Gm = N * locVol g) by (rewrite (proj1 perp_vol_eq), perp_prod; exact E).
  unfold locd_size, locd_perp_size. fold M Gm. rewrite Z.min_l by nia. rewrite EM. pose proof Gm_pos. nia.
Qed.

(** what is asked to the two remappings *)
Definition locd_delivers : Prop :=
  forall (A : Type) (sched : Z -> list Z) (input : Z -> table A) (out : table A),
  (forall m i, In i (sched m) <-> 0 <= i < m) -> forall r, 0 <= r < nranks g ->
  (exists out', lx_to_locd g mu sched input out r = Some out' /\
     forall q i j, 0 <= q < nranks g -> 0 <= i < locVol g -> locd_make g mu q i = Some (r, j) -> out' j = input q i) /\
  (exists out', locd_to_lx g mu sched input out r = Some out' /\
     forall q i j, 0 <= q < nranks g -> 0 <= i < locd_size g mu q -> locd_unmake g mu q i = (r, j) -> out' j = input q i).
Lemma locd_remap_right : Z.rem (perp_vol g mu) N = 0 ->
  (forall r, 0 <= r < N -> local_part_right N (going (locVol g) (total_index (locd_make g mu))) r /\ local_part_right N (fun r q => going (locVol g) (total_index (locd_make g mu)) q r) r) ->
  locd_delivers.
Proof.
  intros Hpd Hsym A sched input out Hs r Hr. fold N in Hr |- *.
  pose proof (glbVol_split g Hv) as (E & HN & Hn). fold N in E, HN.
  set (fto := total_index (locd_make g mu)). set (ffrom := locd_unmake g mu). set (n := locVol g) in *. fold fto in Hsym.
  assert (to_inv : forall r i, 0 <= r < N -> 0 <= i < n -> let '(q, j) := fto r i in 0 <= q < N /\ 0 <= j < n /\ ffrom q j = (r, i)).
  { intros a i Ha Hi. destruct (proj1 locd_main a i Ha Hi) as (x & q & j & Hc & Em & Hq & Hj & _ & _ & Hu). unfold fto, total_index. rewrite Em.
    rewrite (locd_size_div Hpd q Hq) in Hj. repeat split; try assumption; lia. }
  assert (from_inv : forall q j, 0 <= q < N -> 0 <= j < n -> let '(r, i) := ffrom q j in 0 <= r < N /\ 0 <= i < n /\ fto r i = (q, j)).
  { intros q j Hq Hj. destruct (proj2 locd_main q j Hq) as (a & i & Eu & Ha & Hi & Em); [rewrite (locd_size_div Hpd q Hq); exact Hj|].
    unfold ffrom. rewrite Eu. unfold fto, total_index. rewrite Em. repeat split; try assumption; lia. }
  assert (Hfit : N * n <= int_max + 1) by (unfold glb_fits_int in Hf; lia).
  split.
  - destruct (bij_hyps g fto ffrom to_inv) as [H1 H2].
    destruct (@remap_main N n HN (Z.lt_le_incl _ _ Hn) fto H1 H2 Hfit A (fun _ => n) sched input out) with (r := r) as (out' & Eo & Ho & _); try assumption.
    + reflexivity.
    + intros a Ha. now apply Hsym.
    + exists out'. split; [exact Eo|]. intros q i j Hq Hi Ei. specialize (Ho q i Hq Hi). unfold fto, total_index in Ho. rewrite Ei in Ho. now apply Ho.
  - destruct (bij_hyps g ffrom fto from_inv) as [H1 H2].
    destruct (@remap_main N n HN (Z.lt_le_incl _ _ Hn) ffrom H1 H2 Hfit A (locd_size g mu) sched input out) with (r := r) as (out' & Eo & Ho & _); try assumption.
    + intros a Ha. now apply locd_size_div.
    + intros a Ha. apply (local_right_ext N (fun r q => going n fto q r)); [|assumption|now apply Hsym]. intros b c Hb Hc. symmetry. now apply (going_inv N).
    + exists out'. split; [exact Eo|]. intros q i j Hq Hi Ei. rewrite (locd_size_div Hpd q Hq) in Hi. specialize (Ho q i Hq Hi). rewrite Ei in Ho. now apply Ho.
Qed.
Lemma locd_remap_sym : Z.rem (perp_vol g mu) N = 0 ->
  (forall r q, 0 <= r < N -> 0 <= q < N -> going (locVol g) (total_index (locd_make g mu)) r q = going (locVol g) (total_index (locd_make g mu)) q r) ->
  locd_delivers.
Proof.
  intros Hd Hs. apply locd_remap_right; [exact Hd|]. intros r Hr. split; apply local_right_sym; try assumption; intros q Hq; [|symmetry]; now apply Hs.
Qed.
(** all the messages of the same length *)
Lemma locd_remap_const : Z.rem (perp_vol g mu) N = 0 ->
  (exists c, forall r q, 0 <= r < N -> 0 <= q < N -> going (locVol g) (total_index (locd_make g mu)) r q = 0 \/ going (locVol g) (total_index (locd_make g mu)) r q = c) ->
  locd_delivers.
Proof.
  intros Hd [c Hc]. apply locd_remap_right; [exact Hd|]. set (fto := total_index (locd_make g mu)) in *. set (ffrom := locd_unmake g mu). set (n := locVol g) in *.
  destruct (glbVol_split g Hv) as (E & HN & Hn). fold N in E, HN. fold n in Hn.
  assert (to_inv : forall r i, 0 <= r < N -> 0 <= i < n -> let '(q, j) := fto r i in 0 <= q < N /\ 0 <= j < n /\ ffrom q j = (r, i)).
  { intros a i Ha Hi. destruct (proj1 locd_main a i Ha Hi) as (x & q & j & _ & Em & Hq & Hj & _ & _ & Hu). unfold fto, total_index. rewrite Em.
    rewrite (locd_size_div Hd q Hq) in Hj. repeat split; try assumption; lia. }
  assert (from_inv : forall q j, 0 <= q < N -> 0 <= j < n -> let '(r, i) := ffrom q j in 0 <= r < N /\ 0 <= i < n /\ fto r i = (q, j)).
  { intros q j Hq Hj. destruct (proj2 locd_main q j Hq) as (a & i & Eu & Ha & Hi & Em); [rewrite (locd_size_div Hd q Hq); exact Hj|].
    unfold ffrom. rewrite Eu. unfold fto, total_index. rewrite Em. repeat split; try assumption; lia. }
  assert (Row : forall f h : Z -> Z -> Z * Z, (forall r i, 0 <= r < N -> 0 <= i < n -> let '(q, j) := f r i in 0 <= q < N /\ 0 <= j < n /\ h q j = (r, i)) -> forall r, 0 <= r < N -> sumZ (map (going n f r) (seqZ N)) = n).
  { intros f h H r Hr. unfold going. rewrite sum_count; [rewrite seqZ_length; lia|]. intros i Hi. apply in_seqZ in Hi. specialize (H r i Hr Hi). destruct (f r i). cbn [fst]. tauto. }
  assert (Col : forall r, 0 <= r < N -> sumZ (map (fun q => going n fto q r) (seqZ N)) = n).
  { intros r Hr. transitivity (sumZ (map (going n ffrom r) (seqZ N))); [|exact (Row ffrom fto from_inv r Hr)]. apply sumZ_map_ext. intros q Hq. apply in_seqZ in Hq. apply (going_inv N n fto ffrom); assumption. }
  intros r Hr. split; apply (local_right_const N _ c); try assumption.
  - intros q Hq. split; now apply Hc.
  - rewrite Col by assumption. now apply (Row fto ffrom).
  - intros q Hq. split; now apply Hc.
  - rewrite Col by assumption. symmetry. now apply (Row fto ffrom).
Qed.
Theorem locd_remap_main : mu <> 0%nat -> Z.rem (glbSize g).[0] (nranks g) = 0 ->
  forall (A : Type) (sched : Z -> list Z) (input : Z -> table A) (out : table A),
  (forall m i, In i (sched m) <-> 0 <= i < m) -> forall r, 0 <= r < nranks g ->
  (exists out', lx_to_locd g mu sched input out r = Some out' /\
     forall q i j, 0 <= q < nranks g -> 0 <= i < locVol g -> locd_make g mu q i = Some (r, j) -> out' j = input q i) /\
  (exists out', locd_to_lx g mu sched input out r = Some out' /\
     forall q i j, 0 <= q < nranks g -> 0 <= i < locd_size g mu q -> locd_unmake g mu q i = (r, j) -> out' j = input q i).
Proof.
  intros Hmu0 Hd A sched input out Hs r Hr. fold N in Hd, Hr |- *.
  pose proof (glbVol_split g Hv) as (E & HN & Hn). fold N in E, HN.
  pose proof M_spec as (HM & HM1 & HM2). pose proof Gm_pos as HGm. revert r Hr. revert Hs. revert out. revert input. revert sched. revert A.
  change locd_delivers.
  assert (Hdp : exists R, 0 < R /\ perp_vol g mu = (glbSize g).[0] * R /\ forall x, in_box x (glbSize g) -> exists y, 0 <= y < R /\ perp_pos x = x.[0] * R + y).
  { rewrite (proj1 perp_vol_eq). unfold perp_pos. 
    exists (prodZ (sel_dirs (tl (others mu)) (glbSize g))).
    assert (HR : 0 < prodZ (sel_dirs (tl (others mu)) (glbSize g))).
    { apply prodZ_pos. apply Forall_forall. intros n Hin. unfold sel_dirs in Hin. apply in_map_iff in Hin as (nu & <- & Hnu).
      pose proof (glbSize_pos g Hv) as H. rewrite Forall_forall in H. apply H, nth_In, oth_in.
      destruct (others mu); [contradiction|now right]. }
    split; [exact HR|]. assert (Eo : others mu = 0%nat :: tl (others mu)) by (clear - Hmu Hmu0; destruct mu as [|[|[|[|m]]]]; try lia; reflexivity).
    split; [rewrite Eo at 1; reflexivity|]. intros x Hx. exists (row_major (sel_dirs (tl (others mu)) x) (sel_dirs (tl (others mu)) (glbSize g))). split.
    - apply row_major_bounds, sel_box; [assumption|]. intros nu Hnu. apply oth_in. rewrite Eo. now right.
    - rewrite Eo at 1 2. reflexivity. }
  destruct Hdp as (R & HR & EpR & HpR).
  pose proof (Z.quot_rem' (glbSize g).[0] N) as Hq0. rewrite Hd in Hq0. set (Tb := Z.quot (glbSize g).[0] N) in *.
  assert (Hp0 : 0 < perp_vol g mu) by apply perp_vol_eq.
  assert (Hpd : Z.rem (perp_vol g mu) N = 0).
  { rewrite EpR, Hq0. replace ((N * Tb + 0) * R) with ((Tb * R) * N) by ring. apply Z.rem_mul. lia. }
  assert (HTb : 0 < Tb) by nia. assert (EM : M = Tb * R) by nia.
  apply locd_remap_sym; [exact Hpd|].
  { intros a b Ha Hb. apply slab_sym; try assumption. intros c i x Hc Hi Hx. unfold total_index.
    destruct (site_coords g c i Hv Hc Hi) as (x' & Hc' & Hbx & Ho). assert (x' = x) by congruence. subst x'.
    rewrite (make_spec c i x Hx Hbx). cbn [fst]. fold N Tb. rewrite EM. destruct (HpR x Hbx) as (y & Hy & ->).
    rewrite (Z.mul_comm Tb), <- Z.div_div by lia. rewrite Z.div_add_l, (Z.div_small y) by lia. f_equal; lia. }
Qed.
(** one rank *)
Lemma locd_remap_one : nranks g = 1 -> locd_delivers.
Proof.
  intros H1. apply locd_remap_sym; unfold N in *; rewrite H1.
  - apply Z.rem_1_r.
  - intros r q Hr Hq. replace r with q by lia. reflexivity.
Qed.
End Locd.
