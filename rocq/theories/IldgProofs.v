From Verif Require Import Base GeometryModel GeometrySpec GeometryProofs OwnerProofs LabelProofs HaloProofs Geometry_final
  AllToAllModel AllToAllSpec AllToAllRemap IldgModel.

Definition sel_dirs (ds : list nat) (x : list Z) : list Z := map (fun nu => x.[nu]) ds.

Lemma sel_snoc ds nu x : sel_dirs (ds ++ [nu]) x = sel_dirs ds x ++ [x.[nu]].
Proof. unfold sel_dirs. now rewrite map_app. Qed.
Lemma sel_box ds x s : in_box x s -> (forall nu, In nu ds -> (nu < length s)%nat) -> in_box (sel_dirs ds x) (sel_dirs ds s).
Proof.
  intros Hx H. unfold sel_dirs, in_box. induction ds as [|nu ds IH]; cbn [map]; constructor.
  - apply in_box_nth in Hx as [_ Hx]. apply Hx, H. now left.
  - apply IH. intros; apply H; now right.
Qed.
Lemma sel_len ds x : length (sel_dirs ds x) = length ds. Proof. apply map_length. Qed.

Section Dirs.
Context (g : grid) (Hpos : Forall (fun n => 0 < n) (glbSize g)).

Lemma enc_dirs x : in_box x (glbSize g) -> forall ds, (forall nu, In nu ds -> (nu < length (glbSize g))%nat) ->
  prodZ (sel_dirs ds (glbSize g)) <= int_max + 1 ->
  fold_left (ildg_step g x) ds (Some 0) = Some (row_major (sel_dirs ds x) (sel_dirs ds (glbSize g))).
Proof.
  intros Hx ds. induction ds as [|nu ds IH] using rev_ind; intros Hin Hfit; [reflexivity|].
  rewrite fold_left_app. cbn [fold_left].
  assert (Hin' : forall m, In m ds -> (m < length (glbSize g))%nat) by (intros; apply Hin, in_or_app; now left).
  pose proof (sel_box ds x _ Hx Hin') as Hb. pose proof (row_major_bounds _ _ Hb) as Hrb.
  assert (Hnu : (nu < length (glbSize g))%nat) by (apply Hin, in_or_app; right; now left).
  pose proof Hx as Hx'. apply in_box_nth in Hx' as [_ Hx']. specialize (Hx' nu Hnu).
  rewrite !sel_snoc in *. rewrite prodZ_app in Hfit. cbn [prodZ fold_right] in Hfit. fold (prodZ (sel_dirs ds (glbSize g))) in Hfit.
  rewrite IH by (try assumption; nia). rewrite row_major_snoc by (now rewrite !sel_len).
  cbn [ildg_step]. set (v := row_major _ _) in *. set (n := (glbSize g).[nu]) in *. set (P := prodZ _) in *. 
  assert (v * n + x.[nu] <= int_max) by nia. unfold in_int, int_min.
  replace ((-2147483648 <=? v * n) && (v * n <=? int_max) && ((-2147483648 <=? v * n + x.[nu]) && (v * n + x.[nu] <=? int_max))) with true; [reflexivity|].
  assert (0 <= v * n) by nia. symmetry. rewrite !andb_true_iff, !Z.leb_le. lia.
Qed.

Lemma dec_dirs x : in_box x (glbSize g) -> forall ds, (forall nu, In nu ds -> (nu < length (glbSize g))%nat) -> NoDup ds ->
  forall c, length c = length (glbSize g) ->
  let c' := fst (fold_left (unildg_step g) (rev ds) (c, row_major (sel_dirs ds x) (sel_dirs ds (glbSize g)))) in
  length c' = length (glbSize g) /\ forall m, c'.[m] = if in_dec Nat.eq_dec m ds then x.[m] else c.[m].
Proof.
  cbv zeta. intros Hx ds. induction ds as [|nu ds IH] using rev_ind; intros Hin Hnd c Hc.
  - cbn. split; [assumption|]. reflexivity.
  - rewrite rev_unit. cbn [fold_left].
    assert (Hin' : forall m, In m ds -> (m < length (glbSize g))%nat) by (intros; apply Hin, in_or_app; now left).
    pose proof (sel_box ds x _ Hx Hin') as Hb. pose proof (row_major_bounds _ _ Hb) as Hrb.
    assert (Hnu : (nu < length (glbSize g))%nat) by (apply Hin, in_or_app; right; now left).
    pose proof Hx as Hx'. apply in_box_nth in Hx' as [_ Hx']. specialize (Hx' nu Hnu).
    rewrite !sel_snoc, row_major_snoc by (now rewrite !sel_len).
    set (v := row_major _ _) in *. set (n := (glbSize g).[nu]) in *.
    assert (E1 : Z.rem (v * n + x.[nu]) n = x.[nu]).
    { rewrite Z.rem_mod_nonneg by nia. rewrite Z.add_comm, Z.mod_add, Z.mod_small by lia. reflexivity. }
    assert (E2 : Z.quot (v * n + x.[nu]) n = v).
    { rewrite Z.quot_div_nonneg by nia. rewrite Z.div_add_l, Z.div_small by lia. lia. }
    assert (E : unildg_step g (c, v * n + x.[nu]) nu = (upd c nu x.[nu], v)) by (unfold unildg_step; cbn [fst snd]; fold n; now rewrite E1, E2).
    rewrite E. apply NoDup_remove in Hnd as [Hnd Hni]. rewrite app_nil_r in Hnd, Hni.
    destruct (IH Hin' Hnd (upd c nu x.[nu])) as [H1 H2]; [now rewrite upd_length|]. split; [exact H1|].
    intros m. unfold v, n in *. rewrite H2. destruct (in_dec Nat.eq_dec m ds) as [Hm|Hm]; destruct (in_dec Nat.eq_dec m (ds ++ [nu])) as [Hm'|Hm']; try reflexivity.
    + exfalso. apply Hm', in_or_app. now left.
    + apply in_app_or in Hm' as [Hm'|[->|[]]]; [contradiction|]. apply nth_upd_eq. lia.
    + apply nth_upd_neq. intros ->. apply Hm', in_or_app. right. now left.
Qed.
End Dirs.

Lemma list_eq_nth (x y : list Z) : length x = length y -> (forall m, (m < length y)%nat -> x.[m] = y.[m]) -> x = y.
Proof. intros Hl H. apply (nth_ext _ _ 0 0); [assumption|]. intros n Hn. apply H. congruence. Qed.

Lemma glb_len g : valid_grid g = true -> length (glbSize g) = 4%nat.
Proof. intros Hv. destruct (valid_grid_inv g Hv) as (n0&n1&n2&n3&l0&l1&l2&l3&->&_). reflexivity. Qed.

Lemma glbVol_split g : valid_grid g = true -> prodZ (glbSize g) = nranks g * locVol g /\ 0 < nranks g /\ 0 < locVol g.
Proof.
  intros Hv. rewrite nranks_prod, (locVol_prod g Hv). split; [|split].
  - destruct (valid_grid_inv g Hv) as (n0&n1&n2&n3&l0&l1&l2&l3&Hg&Hl&_). rewrite Hl, Hg. cbn [glbSize nRanksDir]. rewrite !prodZ4. ring.
  - apply prodZ_pos, nRanks_pos, Hv.
  - apply prodZ_pos, locSize_pos, Hv.
Qed.

Lemma site_coords g r i : valid_grid g = true -> 0 <= r < nranks g -> 0 <= i < locVol g ->
  exists x, glb_coords g r i = Some x /\ in_box x (glbSize g) /\ getLoclxAndRankOfCoords g x = (r, i).
Proof.
  intros Hv Hr Hi. destruct (rank_coord_box g Hv r Hr) as [Hp Er]. unfold glb_coords.
  destruct (tables_main g (coordOfRank g r) Hv Hp i) as (y & Hy & Hno & Hf & Hc & Hb & Hl & _).
  { pose proof (vols_nonneg g Hv). lia. }
  destruct (Hl (proj2 Hi)) as (_ & _ & Ey). exists (true_glb g (coordOfRank g r) y). split; [exact Hc|]. split; [exact Hb|].
  assert (Hyb : in_box y (locSize g)). { rewrite Ey. apply coordOfLx_in_box; [now apply locSize_pos|now rewrite <- locVol_prod]. }
  rewrite true_glb_in by assumption.
  rewrite (owner_bwd g (coordOfRank g r) y Hv Hp Hyb). f_equal; [assumption|]. unfold loclxOfCoord. rewrite Ey.
  apply lxOfCoord_coordOfLx; [now apply locSize_pos|now rewrite <- locVol_prod].
Qed.

Lemma scidac_in nu : In nu scidacMapping -> (nu < 4)%nat. Proof. cbn. lia. Qed.
Lemma scidac_nodup : NoDup scidacMapping. Proof. unfold scidacMapping. repeat constructor; cbn; lia. Qed.
Lemma scidac_prod g : valid_grid g = true -> prodZ (sel_dirs scidacMapping (glbSize g)) = prodZ (glbSize g).
Proof.
  intros Hv. destruct (valid_grid_inv g Hv) as (n0&n1&n2&n3&l0&l1&l2&l3&->&_). cbn [glbSize sel_dirs scidacMapping map nth]. rewrite !prodZ4. ring.
Qed.

(** position in the file: x runs fastest, then y, z, t *)
Definition ildg_pos (g : grid) (x : list Z) : Z := row_major (sel_dirs scidacMapping x) (sel_dirs scidacMapping (glbSize g)).

Section Ildg.
Context (g : grid) (Hv : valid_grid g = true) (Hf : glb_fits_int g).
Lemma ildg_pos_bounds x : in_box x (glbSize g) -> 0 <= ildg_pos g x < nranks g * locVol g.
Proof.
  intros Hx. unfold ildg_pos. rewrite <- (proj1 (glbVol_split g Hv)), <- (scidac_prod g Hv). apply row_major_bounds, sel_box; [assumption|].
  rewrite (glb_len g Hv). exact scidac_in.
Qed.
Lemma ildg_pos_eq x : in_box x (glbSize g) -> ildg_pos g x = ((x.[0] * (glbSize g).[3] + x.[3]) * (glbSize g).[2] + x.[2]) * (glbSize g).[1] + x.[1].
Proof. intros _. unfold ildg_pos. cbn [sel_dirs scidacMapping map row_major prodZ fold_right]. ring. Qed.

Lemma to_spec r i x : glb_coords g r i = Some x -> in_box x (glbSize g) ->
  index_to_ILDG g r i = Some (ildg_pos g x / locVol g, ildg_pos g x mod locVol g).
Proof.
  intros Hx Hb. unfold index_to_ILDG. cbv zeta. rewrite Hx.
  rewrite (enc_dirs g x Hb); [|rewrite (glb_len g Hv); exact scidac_in|rewrite (scidac_prod g Hv); exact Hf].
  fold (ildg_pos g x). pose proof (ildg_pos_bounds x Hb) as Hp. destruct (glbVol_split g Hv) as (Hvol & HN & Hn).
  rewrite Z.quot_div_nonneg, Z.rem_mod_nonneg by lia.
  pose proof (Z.div_lt_upper_bound (ildg_pos g x) (locVol g) (nranks g)). pose proof (Z.div_pos (ildg_pos g x) (locVol g)).
  pose proof (Z.mod_pos_bound (ildg_pos g x) (locVol g)). unfold glb_fits_int in Hf.
  rewrite !wrap32_id; [reflexivity| |]; unfold in_int, int_min, int_max in *; nia.
Qed.
Lemma from_spec q j x : 0 <= q < nranks g -> 0 <= j < locVol g -> in_box x (glbSize g) -> ildg_pos g x = q * locVol g + j ->
  index_from_ILDG g q j = getLoclxAndRankOfCoords g x.
Proof.
  intros Hq Hj Hx E. unfold index_from_ILDG. destruct (glbVol_split g Hv) as (Hvol & HN & Hn). unfold glb_fits_int in Hf.
  rewrite wrap32_id by (unfold in_int, int_min, int_max in *; nia). rewrite <- E. unfold ildg_pos.
  destruct (dec_dirs g x Hx scidacMapping) with (c := [0;0;0;0]) as [H1 H2].
  - rewrite (glb_len g Hv); exact scidac_in.
  - exact scidac_nodup.
  - rewrite (glb_len g Hv). reflexivity.
  - f_equal. apply list_eq_nth.
    + rewrite H1. symmetry. now apply in_box_length.
    + intros m Hm. rewrite H2. destruct (in_dec Nat.eq_dec m scidacMapping) as [|Hn']; [reflexivity|]. exfalso. apply Hn'.
      rewrite (in_box_length _ _ Hx), (glb_len g Hv) in Hm. cbn. lia.
Qed.
Lemma pos_onto k : 0 <= k < nranks g * locVol g -> exists x, in_box x (glbSize g) /\ ildg_pos g x = k.
Proof.
  intros Hk. set (sG := sel_dirs scidacMapping (glbSize g)).
  assert (HsG : Forall (fun n => 0 < n) sG).
  { destruct (valid_grid_inv g Hv) as (n0&n1&n2&n3&l0&l1&l2&l3&Hg&_&?&?). unfold sG. rewrite Hg. cbn [glbSize sel_dirs scidacMapping map nth]. repeat constructor; nia. }
  assert (Hk' : 0 <= k < prodZ sG) by (unfold sG; rewrite scidac_prod by assumption; now rewrite (proj1 (glbVol_split g Hv))).
  pose proof (coordOfLx_in_box k sG HsG Hk') as Hb. pose proof (lxOfCoord_coordOfLx k sG HsG Hk') as E.
  exists (sel_dirs scidacMapping (coordOfLx k sG)). 
  assert (Hl : length (coordOfLx k sG) = 4%nat) by (rewrite coordOfLx_length; unfold sG; now rewrite sel_len).
  rewrite lxOfCoord_row_major in E by (rewrite coordOfLx_length; reflexivity).
  destruct (length4 _ Hl) as (a & b & c & d & Ec). rewrite Ec in *.
  destruct (length4 _ (glb_len g Hv)) as (A & B & C & D & EG). unfold ildg_pos. 
  clear Ec Hl. unfold sG in Hb, E. clear sG HsG Hk'. rewrite EG in *. cbn [sel_dirs scidacMapping map nth] in *.
  apply in_box4 in Hb. split; [apply in_box4; tauto|exact E].
Qed.
Lemma pos_inj x y : in_box x (glbSize g) -> in_box y (glbSize g) -> ildg_pos g x = ildg_pos g y -> x = y.
Proof.
  intros Hx Hy E. 
  assert (H : sel_dirs scidacMapping x = sel_dirs scidacMapping y).
  { apply (row_major_inj (sel_dirs scidacMapping (glbSize g))); try assumption; apply sel_box; try assumption; rewrite (glb_len g Hv); exact scidac_in. }
  destruct (in_box_length4 x _ Hx (glb_len g Hv)) as (a&b&c&d&->). destruct (in_box_length4 y _ Hy (glb_len g Hv)) as (a'&b'&c'&d'&->).
  cbn [sel_dirs scidacMapping map nth] in H. congruence.
Qed.

Theorem ildg_main :
  (forall r i, 0 <= r < nranks g -> 0 <= i < locVol g ->
     exists x q j, glb_coords g r i = Some x /\ index_to_ILDG g r i = Some (q, j) /\ 0 <= q < nranks g /\ 0 <= j < locVol g /\
       q * locVol g + j = ((x.[0] * (glbSize g).[3] + x.[3]) * (glbSize g).[2] + x.[2]) * (glbSize g).[1] + x.[1] /\
       index_from_ILDG g q j = (r, i)) /\
  (forall q j, 0 <= q < nranks g -> 0 <= j < locVol g ->
     exists r i, index_from_ILDG g q j = (r, i) /\ 0 <= r < nranks g /\ 0 <= i < locVol g /\ index_to_ILDG g r i = Some (q, j)).
Proof.
  destruct (glbVol_split g Hv) as (Hvol & HN & Hn). split.
  - intros r i Hr Hi. destruct (site_coords g r i Hv Hr Hi) as (x & Hc & Hb & Ho).
    exists x, (ildg_pos g x / locVol g), (ildg_pos g x mod locVol g). split; [exact Hc|]. split; [now apply to_spec|].
    pose proof (ildg_pos_bounds x Hb) as Hp. pose proof (Z.mod_pos_bound (ildg_pos g x) (locVol g) Hn) as Hm.
    pose proof (Z.div_mod (ildg_pos g x) (locVol g)) as Hd.
    assert (Hq : 0 <= ildg_pos g x / locVol g < nranks g).
    { split; [apply Z.div_pos; lia|]. apply Z.div_lt_upper_bound; lia. }
    split; [exact Hq|]. split; [exact Hm|]. split; [rewrite <- ildg_pos_eq by assumption; lia|].
    rewrite <- Ho. apply from_spec; try assumption; lia.
  - intros q j Hq Hj. destruct (pos_onto (q * locVol g + j)) as (x & Hx & E); [nia|].
    pose proof (from_spec q j x Hq Hj Hx E) as Hfr. destruct (getLoclxAndRankOfCoords g x) as [r i] eqn:Eo.
    destruct (owner_fwd g x Hv Hx r i Eo) as (Hr & Hi & _). exists r, i. split; [exact Hfr|]. split; [exact Hr|]. split; [exact Hi|].
    destruct (site_coords g r i Hv Hr Hi) as (x' & Hc & Hb & Ho). assert (x' = x) by (apply (owner_inj g); congruence). subst x'.
    rewrite (to_spec r i x Hc Hx), E. rewrite Z.div_add_l, Z.div_small by lia. rewrite (Z.add_comm (q * _) j), Z.mod_add, Z.mod_small by lia. do 2 f_equal; lia.
Qed.
End Ildg.
