(** Even/odd fields: split and paste, neighbours, halo and edge exchange. *)
From Verif Require Import Base GeometryModel GeometrySpec GeometryProofs OwnerProofs FullLxProofs
  FullLxMain LabelProofs NeighProofs GeoMiscModel GeoMiscProofs HaloModel HaloProofs EdgeProofs EoModel EoProofs.

Section G.
Context (g : grid) (Hv : valid_grid g = true) (Heo : eo_grid_ok g = true).

(** *** split and paste *)
Section Split.
Context (rc : list Z) (Hrc : in_box rc (nRanksDir g)).
Let e := set_eo_geometry g (label_all_sites g rc).

Lemma eo_of i : 0 <= i < totVol g -> loclx_parity e i = Some (site_par g rc i) /\ loceo_of_loclx e i = Some (i / 2) /\
  loclx_of_loceo e (site_par g rc i) (i / 2) = Some i.
Proof.
  intros Hi. destruct (eo_tables_spec g Hv Heo rc Hrc) as (H1 & H2). fold e in H1, H2.
  destruct (H1 i Hi). repeat split; auto. apply H2. auto.
Qed.

Lemma eo_same i j : 0 <= i < totVol g -> 0 <= j < totVol g -> site_par g rc i = site_par g rc j -> i / 2 = j / 2 -> i = j.
Proof.
  intros Hi Hj Hp Hh. destruct (eo_of i Hi) as (_ & _ & E1). destruct (eo_of j Hj) as (_ & _ & E2).
  rewrite Hp, Hh in E1. rewrite E1 in E2. now injection E2.
Qed.

Lemma locVolh_dbl : locVol g = 2 * locVolh g.
Proof.
  destruct (locVol_even g Hv Heo) as (h & E). unfold locVolh. rewrite E. rewrite (Z.mul_comm 2 h), Z.quot_mul by lia. ring.
Qed.
Lemma bordVolh_dbl : bordVol g = 2 * bordVolh g.
Proof. reflexivity. Qed.
Lemma edgeVolh_dbl : edgeVol g = 2 * edgeVolh g.
Proof.
  unfold edgeVolh. rewrite edgeVol_eq. set (s := _ + _ + _ + _ + _ + _). replace (4 * s) with (2 * s * 2) by ring.
  rewrite Z.quot_mul by lia. ring.
Qed.

Lemma loc_onto p k : (p = 0 \/ p = 1) -> 0 <= k < locVolh g -> exists i, 0 <= i < locVol g /\ i / 2 = k /\ site_par g rc i = p /\
  loclx_of_loceo e p k = Some i.
Proof.
  intros Hp Hk. pose proof (vols_nonneg g Hv) as (V0 & V1 & V2). pose proof locVolh_dbl as Hd.
  destruct (eo_onto g Hv Heo rc p k Hrc Hp) as (i & Hi & E & Ep); [lia|unfold totVol; lia|].
  exists i. destruct (eo_of i Hi) as (_ & _ & E3). rewrite E, Ep in E3. repeat split; auto; lia.
Qed.

Definition spar (p : Z) (loclx : Z) : option Z :=
  match loclx_parity e loclx with
  | Some q => if p =? q then loceo_of_loclx e loclx else None
  | None => None end.

Lemma split_spec {A} (inLx : table A) (v : Z -> A) sched out : (forall i, In i sched <-> 0 <= i < locVol g) ->
  (forall i, 0 <= i < locVol g -> inLx i = Some (v i)) ->
  forall p i, 0 <= i < locVol g -> site_par g rc i = p ->
  split_lx_vector_into_eo_parts e sched out inLx p (i / 2) = Some (v i).
Proof.
  intros Hs Hin p i Hi Hp. unfold split_lx_vector_into_eo_parts.
  pose proof (vols_nonneg g Hv) as (V0 & V1 & V2).
  assert (G : forall L out, (forall j, In j L -> 0 <= j < locVol g) ->
     fold_left (split_step e inLx) L out p = fold_left (wstep (spar p) v) L (out p)).
  { induction L as [|j L IH]; intros o HL; [reflexivity|]. cbn [fold_left].
    rewrite IH by (intros; apply HL; now right). f_equal.
    unfold split_step, wstep, spar.
    destruct (eo_of j) as (E1 & E2 & _). { specialize (HL j (or_introl eq_refl)). unfold totVol; lia. }
    rewrite E1, E2, Hin by (apply HL; now left).
    destruct (Z.eqb_spec p (site_par g rc j)) as [->|Hne]; reflexivity. }
  rewrite G by (intros j Hj; now apply Hs).
  apply wfold_in.
  - now apply Hs.
  - unfold spar. destruct (eo_of i ltac:(unfold totVol; lia)) as (E1 & E2 & _). rewrite E1, E2, Hp, Z.eqb_refl. reflexivity.
  - intros j Hj. unfold spar. apply Hs in Hj. destruct (eo_of j ltac:(unfold totVol; lia)) as (E1 & E2 & _). rewrite E1, E2.
    destruct (Z.eqb_spec p (site_par g rc j)) as [E|]; [|discriminate]. intros [= Eh].
    f_equal. apply eo_same; try (unfold totVol; lia).
Qed.

Lemma paste_spec {A} (inEo : Z -> table A) (v : Z -> Z -> A) (sched : Z -> list Z) out :
  (forall p, p = 0 \/ p = 1 -> forall k, In k (sched p) <-> 0 <= k < locVolh g) ->
  (forall p k, p = 0 \/ p = 1 -> 0 <= k < locVolh g -> inEo p k = Some (v p k)) ->
  forall i, 0 <= i < locVol g -> paste_eo_parts_into_lx_vector e sched out inEo i = Some (v (site_par g rc i) (i / 2)).
Proof.
  intros Hs Hin i Hi. unfold paste_eo_parts_into_lx_vector. set (L := _ ++ _).
  pose proof (vols_nonneg g Hv) as (V0 & V1 & V2). pose proof locVolh_dbl as Hd.
  assert (HL : forall q, In q L <-> (fst q = 0 \/ fst q = 1) /\ 0 <= snd q < locVolh g).
  { intros [p k]. unfold L. rewrite in_app_iff, !in_map_iff. cbn [fst snd]. split.
    - intros [(x & [= <- <-] & Hx)|(x & [= <- <-] & Hx)]; apply Hs in Hx; auto.
    - intros [[-> | ->] Hk]; [left|right]; exists k; (split; [reflexivity|]); apply Hs; auto. }
  assert (G : forall L out, (forall q, In q L -> (fst q = 0 \/ fst q = 1) /\ 0 <= snd q < locVolh g) ->
     fold_left (paste_step e inEo) L out = fold_left (wstep (fun q => loclx_of_loceo e (fst q) (snd q)) (fun q => v (fst q) (snd q))) L out).
  { clear L HL. induction L as [|[p k] L IH]; intros o HL; [reflexivity|]. cbn [fold_left].
    rewrite IH by (intros; apply HL; now right). f_equal.
    destruct (HL (p,k) (or_introl eq_refl)) as [Hp Hk]. cbn [fst snd] in *.
    unfold paste_step, wstep. cbn [fst snd]. rewrite Hin by assumption. destruct (loclx_of_loceo e p k); reflexivity. }
  rewrite G by (intros q Hq; now apply HL). 
  change (v (site_par g rc i) (i / 2)) with ((fun q => v (fst q) (snd q)) (site_par g rc i, i / 2)).
  apply wfold_in.
  - apply HL. cbn [fst snd]. split; [apply site_par_01; auto; unfold totVol; lia|lia].
  - cbn [fst snd]. apply eo_of. unfold totVol; lia.
  - intros [p k] Hq E. cbn [fst snd] in *. destruct (eo_tables_spec g Hv Heo rc Hrc) as (_ & H2). fold e in H2.
    apply H2 in E as (_ & <- & ->). reflexivity.
Qed.

Lemma getpart_spec {A} (inLx : table A) (v : Z -> A) sched out p : (p = 0 \/ p = 1) -> (forall i, In i sched <-> 0 <= i < locVolh g) ->
  (forall i, 0 <= i < locVol g -> inLx i = Some (v i)) ->
  forall i, 0 <= i < locVol g -> site_par g rc i = p -> get_evn_or_odd_part e sched out inLx p (i / 2) = Some (v i).
Proof.
  intros Hp Hs Hin i Hi Hpi. unfold get_evn_or_odd_part.
  pose proof (vols_nonneg g Hv) as (V0 & V1 & V2). pose proof locVolh_dbl as Hd.
  pose (w := fun k => v (match loclx_of_loceo e p k with Some i => i | None => 0 end)).
  assert (G : forall L out, (forall j, In j L -> 0 <= j < locVolh g) ->
     fold_left (fun out eo => match loclx_of_loceo e p eo with
                           | Some loclx => match inLx loclx with Some v => tset out eo v | None => out end
                           | None => out end) L out = fold_left (wstep (fun k => Some k) w) L out).
  { induction L as [|j L IH]; intros o HL; [reflexivity|]. cbn [fold_left].
    rewrite IH by (intros; apply HL; now right). f_equal.
    destruct (loc_onto p j Hp (HL j (or_introl eq_refl))) as (i' & Hi' & _ & _ & E).
    unfold wstep, w. rewrite E, Hin by assumption. reflexivity. }
  rewrite G by (intros j Hj; now apply Hs).
  replace (v i) with (w (i / 2)).
  - apply wfold_in; [apply Hs; lia|reflexivity|]. intros b _ [= ->]. reflexivity.
  - unfold w. destruct (eo_of i ltac:(unfold totVol; lia)) as (_ & _ & E). rewrite Hpi in E. now rewrite E.
Qed.

(** *** neighbours *)
Definition nkey (up : bool) mu p (a : Z) : option Z :=
  match loclx_parity e a, loceo_of_loclx e a, loclxNeigh g rc (label_all_sites g rc) up a mu with
  | Some par, Some loceo, Some n =>
      if (0 <=? n) && (n <? totVol g) then
        match loceo_of_loclx e n with Some v => if p =? par then Some loceo else None | None => None end
      else None
  | _, _, _ => None
  end.
Definition nval (up : bool) mu (a : Z) : Z :=
  match loclxNeigh g rc (label_all_sites g rc) up a mu with
  | Some n => match loceo_of_loclx e n with Some v => v | None => 0 end
  | None => 0 end.

Lemma loceo_neigh_proj up mu p :
  loceo_neigh g rc (label_all_sites g rc) e up mu p = fold_left (wstep (nkey up mu p) (nval up mu)) (seqZ (totVol g)) tempty.
Proof.
  unfold loceo_neigh. apply (fold_proj (eo_neigh_fill g rc (label_all_sites g rc) e up mu) (fun s => s p)).
  intros s a. unfold eo_neigh_fill, wstep, nkey, nval.
  destruct (loclx_parity e a) as [par|]; [|reflexivity]. destruct (loceo_of_loclx e a) as [le|]; [|reflexivity].
  destruct (loclxNeigh _ _ _ _ _ _) as [n|]; [|reflexivity]. unfold totVol. destruct ((0 <=? n) && _); [|reflexivity].
  destruct (loceo_of_loclx e n) as [v|]; [|reflexivity]. destruct (Z.eqb_spec p par) as [->|]; reflexivity.
Qed.

Lemma neigh_flip i mu up : 0 <= i < locVol g + bordVol g -> (mu < 4)%nat ->
  exists j, loclxNeigh g rc (label_all_sites g rc) up i mu = Some j /\
   ((j = -1 /\ locVol g <= i) \/
    (0 <= j < totVol g /\ site_par g rc j = 1 - site_par g rc i /\
     loceo_neigh g rc (label_all_sites g rc) e up mu (site_par g rc i) (i / 2) = Some (j / 2))).
Proof.
  intros Hi Hmu. pose proof (vols_nonneg g Hv) as (V0 & V1 & V2).
  destruct (fullLx_onto g Hv i ltac:(lia)) as (y & He & Hn & Ei).
  assert (Hn1 : (n_out g y <= 1)%nat).
  { pose proof (fullLx_region g Hv y He Hn) as R. cbn zeta in R. rewrite Ei in R. clear -R Hi V0 V1 V2. lia. }
  pose proof (neigh_eq g Hv rc y mu up Hrc He Hn Hmu) as En. rewrite Ei in En.
  exists (fullLxOfCoords g (move y mu (dsgn up))). split; [exact En|].
  destruct (step_stored g Hv y mu (dsgn up) He Hn1 Hmu) as [(z & Hez & Hnz & Ez)|[Ho E1]].
  { destruct up; cbn; auto. }
  2:{ left. split; [exact E1|]. pose proof (fullLx_region g Hv y He Hn) as R. cbn zeta in R. rewrite Ei in R.
      assert (n_out g y <> 0%nat).
      { intros H0. pose proof (proj1 (n_out_0 g Hv y) H0 mu Hmu). unfold inside in Ho. lia. }
      lia. }
  right.
  pose proof (fullLx_periodic g _ _ Ez) as Ep. rewrite <- Ep.
  pose proof (fullLx_bounds g Hv z Hez Hnz) as Hb.
  split; [exact Hb|].
  assert (Hflip : site_par g rc (fullLxOfCoords g z) = 1 - site_par g rc i).
  { rewrite <- Ei. destruct (site_par_full g Hv Heo rc y Hrc He Hn) as [_ ->].
    destruct (site_par_full g Hv Heo rc z Hrc Hez Hnz) as [_ ->].
    rewrite <- (parity_true g Hv Heo rc z Hrc (proj1 Hez)).
    rewrite (true_glb_mod g Hv rc z (move y mu (dsgn up)) Hrc (proj1 Hez)); [|unfold move; rewrite upd_length; apply He|exact Ez].
    rewrite (parity_true g Hv Heo) by (auto; unfold move; rewrite upd_length; apply He).
    apply psum_move; auto; [apply He|]. destruct up; cbn; auto. }
  split; [exact Hflip|].
  rewrite loceo_neigh_proj.
  replace (fullLxOfCoords g z / 2) with (nval up mu i).
  2:{ unfold nval. rewrite En, <- Ep. destruct (eo_of _ Hb) as (_ & -> & _). reflexivity. }
  apply wfold_in.
  - apply in_seqZ. unfold totVol. lia.
  - unfold nkey. destruct (eo_of i ltac:(unfold totVol; lia)) as (-> & -> & _). rewrite En, <- Ep.
    replace ((0 <=? fullLxOfCoords g z) && (fullLxOfCoords g z <? totVol g)) with true by (unfold totVol; lia).
    destruct (eo_of _ Hb) as (_ & -> & _). now rewrite Z.eqb_refl.
  - intros b Hb' Hk. apply in_seqZ in Hb'. unfold nkey in Hk. destruct (eo_of b Hb') as (E1 & E2 & _). rewrite E1, E2 in Hk.
    destruct (loclxNeigh _ _ _ _ b _) as [n|]; [|discriminate]. destruct ((0 <=? n) && _); [|discriminate].
    destruct (loceo_of_loclx e n); [|discriminate]. destruct (Z.eqb_spec (site_par g rc i) (site_par g rc b)) as [E|]; [|discriminate].
    injection Hk as Hk. f_equal. apply eo_same; auto; unfold totVol; lia.
Qed.

(** *** surface tables *)
Definition skey (surf : table Z) base baseh p (b : Z) : option Z :=
  match surf b with
  | None => None
  | Some s => match loclx_parity e s, loceo_of_loclx e (b + base), loceo_of_loclx e s with
              | Some par, Some eo, Some v => if p =? par then Some (eo - baseh) else None
              | _, _, _ => None end
  end.
Definition sval (surf : table Z) (b : Z) : Z :=
  match surf b with Some s => match loceo_of_loclx e s with Some v => v | None => 0 end | None => 0 end.

Lemma surfeo_proj surf base baseh p n :
  fold_left (surfeo_fill e surf base baseh) (seqZ n) (fun _ => tempty) p =
  fold_left (wstep (skey surf base baseh p) (sval surf)) (seqZ n) tempty.
Proof.
  apply (fold_proj (surfeo_fill e surf base baseh) (fun s => s p)).
  intros s b. unfold surfeo_fill, wstep, skey, sval. destruct (surf b) as [sl|]; [|reflexivity].
  destruct (loclx_parity e sl) as [par|]; [|reflexivity]. destruct (loceo_of_loclx e (b + base)) as [eo|]; [|reflexivity].
  destruct (loceo_of_loclx e sl) as [v|]; [|reflexivity]. destruct (Z.eqb_spec p par) as [->|]; reflexivity.
Qed.

(** generic: sf b is the surface site of b, and its parity is determined by that of b *)
Lemma surfeo_spec surf sf base baseh n (h : Z -> Z) p b : 
  0 <= base -> base + n <= totVol g -> base = 2 * baseh ->
  (forall b, 0 <= b < n -> surf b = Some (sf b) /\ 0 <= sf b < locVol g /\ site_par g rc (sf b) = h (site_par g rc (b + base))) ->
  (forall x y, h x = h y -> x = y) ->
  0 <= b < n -> site_par g rc (sf b) = p ->
  fold_left (surfeo_fill e surf base baseh) (seqZ n) (fun _ => tempty) p (b / 2) = Some (sf b / 2).
Proof.
  intros H0 Hn Hb2 Hsf Hh Hb Hp. rewrite surfeo_proj.
  pose proof (vols_nonneg g Hv) as (V0 & V1 & V2).
  assert (HK : forall b, 0 <= b < n -> skey surf base baseh p b = (if p =? site_par g rc (sf b) then Some (b / 2) else None) /\ sval surf b = sf b / 2).
  { intros c Hc. destruct (Hsf c Hc) as (E & Hb' & _). unfold skey, sval. rewrite E.
    destruct (eo_of (sf c) ltac:(unfold totVol; lia)) as (E1 & E2 & _). rewrite E1, E2.
    destruct (eo_of (c + base) ltac:(lia)) as (_ & E3 & _). rewrite E3.
    split; [|reflexivity]. replace ((c + base) / 2 - baseh) with (c / 2) by lia. reflexivity. }
  destruct (HK b Hb) as [K1 K2]. rewrite <- K2. apply wfold_in.
  - now apply in_seqZ.
  - rewrite K1, Hp. now rewrite Z.eqb_refl.
  - intros c Hc Hk. apply in_seqZ in Hc. destruct (HK c Hc) as [C1 C2]. rewrite C1 in Hk.
    destruct (Z.eqb_spec p (site_par g rc (sf c))) as [E|]; [|discriminate]. injection Hk as Hk.
    f_equal. destruct (Hsf b Hb) as (_ & _ & P1). destruct (Hsf c Hc) as (_ & _ & P2).
    assert (b + base = c + base); [|lia]. apply eo_same; try lia. apply Hh. congruence.
Qed.
End Split.
End G.
