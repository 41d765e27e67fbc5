(** Final forms of the even/odd theorems, in the vocabulary of GeometrySpec. *)
From Verif Require Import Base GeometryModel GeometrySpec GeometryProofs OwnerProofs FullLxProofs
  FullLxMain LabelProofs NeighProofs GeoMiscModel GeoMiscProofs HaloModel HaloProofs EdgeProofs EoModel EoProofs EoProofs2 EoHalo.

Lemma sumZ_fold4 c : length c = 4%nat -> fold_left Z.add c 0 = sumZ c.
Proof. intros H. destruct (length4 c H) as (a&b&d&e&->). unfold sumZ. cbn [fold_left fold_right]. ring. Qed.

Lemma site_par_sum g rc i : valid_grid g = true -> eo_grid_ok g = true -> in_box rc (nRanksDir g) -> 0 <= i < totVol g ->
  exists gc, glbCoordOfLoclx (label_all_sites g rc) i = Some gc /\ site_par g rc i = (sumZ gc) mod 2.
Proof.
  intros Hv Heo Hrc Hi. destruct (fullLx_onto g Hv i Hi) as (y & He & Hn & <-).
  destruct (site_par_full g Hv Heo rc y Hrc He Hn) as [E _]. exists (true_glb g rc y). split; [exact E|].
  unfold site_par. rewrite E. unfold glb_coord_parity.
  rewrite sumZ_fold4 by (apply (true_glb_length g Hv); [assumption|apply He]).
  apply Z.rem_mod_nonneg; [|lia].
  pose proof (true_glb_box g Hv rc y Hrc (proj1 He)) as Hb. clear -Hb. 
  unfold sumZ. revert Hb. generalize (glbSize g). generalize (true_glb g rc y). intros x s Hb.
  induction Hb as [|c n x s Hc Hr IH]; cbn [fold_right]; lia.
Qed.

Theorem eo_bijection_main : forall g rc, valid_grid g = true -> eo_grid_ok g = true -> in_box rc (nRanksDir g) ->
  let t := label_all_sites g rc in let e := set_eo_geometry g t in
  let tot := locVol g + bordVol g + edgeVol g in
  (forall i, 0 <= i < tot ->
     exists gc p k, glbCoordOfLoclx t i = Some gc /\ p = (sumZ gc) mod 2 /\
       loclx_parity e i = Some p /\ loceo_of_loclx e i = Some k /\ loclx_of_loceo e p k = Some i /\
       (i < locVol g <-> k < locVolh g) /\ 0 <= k /\
       (locVol g <= i < locVol g + bordVol g <-> locVolh g <= k < locVolh g + bordVolh g) /\
       (locVol g + bordVol g <= i <-> locVolh g + bordVolh g <= k) /\ k < locVolh g + bordVolh g + edgeVolh g) /\
  (forall p k, p = 0 \/ p = 1 -> 0 <= k < locVolh g + bordVolh g + edgeVolh g ->
     exists i, 0 <= i < tot /\ loclx_of_loceo e p k = Some i /\ loclx_parity e i = Some p /\ loceo_of_loclx e i = Some k) /\
  2 * locVolh g = locVol g /\ 2 * bordVolh g = bordVol g /\ 2 * edgeVolh g = edgeVol g.
Proof.
  intros g rc Hv Heo Hrc t e tot.
  pose proof (vols_nonneg g Hv) as (V0 & V1 & V2).
  pose proof (locVolh_dbl g Hv Heo) as HLh. pose proof (bordVolh_dbl g) as HBh. pose proof (edgeVolh_dbl g Hv Heo) as HEh.
  split; [|split; [|lia]].
  - intros i Hi. destruct (site_par_sum g rc i Hv Heo Hrc Hi) as (gc & E1 & E2).
    destruct (eo_of g Hv Heo rc Hrc i Hi) as (F1 & F2 & F3).
    exists gc, (site_par g rc i), (i / 2). unfold tot in Hi.
    split; [exact E1|]. split; [exact E2|]. split; [exact F1|]. split; [exact F2|]. split; [exact F3|].
    clear -Hi HLh HBh HEh V0 V1 V2. lia.
  - intros p k Hp Hk. destruct (eo_onto g Hv Heo rc p k Hrc Hp) as (i & Hi & Eh & Ep); [lia|unfold totVol; lia|].
    destruct (eo_of g Hv Heo rc Hrc i Hi) as (F1 & F2 & F3). rewrite Ep in F1, F3. rewrite Eh in F2, F3.
    exists i. split; [exact Hi|]. auto.
Qed.

Theorem split_paste_main : forall A g rc, valid_grid g = true -> eo_grid_ok g = true -> in_box rc (nRanksDir g) ->
  let e := set_eo_geometry g (label_all_sites g rc) in
  forall (sl : list Z) (se : Z -> list Z),
  (forall i, In i sl <-> 0 <= i < locVol g) ->
  (forall p, p = 0 \/ p = 1 -> forall k, In k (se p) <-> 0 <= k < locVolh g) ->
  (* lx -> eo -> lx *)
  (forall (inLx outLx : table A) (outEo : Z -> table A), (forall i, 0 <= i < locVol g -> inLx i <> None) ->
     forall i, 0 <= i < locVol g ->
     paste_eo_parts_into_lx_vector e se outLx (split_lx_vector_into_eo_parts e sl outEo inLx) i = inLx i) /\
  (* eo -> lx -> eo *)
  (forall (inEo outEo : Z -> table A) (outLx : table A), (forall p k, p = 0 \/ p = 1 -> 0 <= k < locVolh g -> inEo p k <> None) ->
     forall p k, p = 0 \/ p = 1 -> 0 <= k < locVolh g ->
     split_lx_vector_into_eo_parts e sl outEo (paste_eo_parts_into_lx_vector e se outLx inEo) p k = inEo p k) /\
  (* one half only *)
  (forall (inLx out : table A) p, p = 0 \/ p = 1 -> (forall i, 0 <= i < locVol g -> inLx i <> None) ->
     forall k, 0 <= k < locVolh g -> exists i, loclx_of_loceo e p k = Some i /\ 0 <= i < locVol g /\
     get_evn_or_odd_part e (se p) out inLx p k = inLx i).
Proof.
  intros A g rc Hv Heo Hrc e sl se Hsl Hse. subst e. set (e := set_eo_geometry g (label_all_sites g rc)). unfold e.
  pose proof (vols_nonneg g Hv) as (V0 & V1 & V2).
  pose proof (locVolh_dbl g Hv Heo) as HLh.
  assert (Hget : forall (a : A) (t : table A) (P : Z -> Prop), (forall i, P i -> t i <> None) ->
     forall i, P i -> t i = Some (match t i with Some v => v | None => a end)).
  { intros a t P H i Hi. specialize (H i Hi). destruct (t i); [reflexivity|congruence]. }
  split; [|split].
  - intros inLx outLx outEo Hin i Hi.
    destruct (inLx i) as [a|] eqn:Ea; [|exfalso; now apply (Hin i)].
    pose (v := fun j => match inLx j with Some v => v | None => a end).
    assert (Hv1 : forall j, 0 <= j < locVol g -> inLx j = Some (v j)).
    { intros j Hj. unfold v. specialize (Hin j Hj). destruct (inLx j); [reflexivity|congruence]. }
    pose (w := fun p k => v (match loclx_of_loceo (set_eo_geometry g (label_all_sites g rc)) p k with Some i => i | None => 0 end)).
    rewrite (paste_spec g Hv Heo rc Hrc _ w se outLx Hse); [|clear i Hi Ea| exact Hi].
    + destruct (eo_of g Hv Heo rc Hrc i ltac:(unfold totVol; lia)) as (_ & _ & F3).
      unfold w. rewrite F3. unfold v. now rewrite Ea.
    + intros p k Hp Hk. destruct (loc_onto g Hv Heo rc Hrc p k Hp Hk) as (i & Hi & E1 & E2 & E3).
      rewrite <- E1. rewrite (split_spec g Hv Heo rc Hrc inLx v sl outEo Hsl Hv1 p i Hi E2).
      unfold w. now rewrite E1, E3.
  - intros inEo outEo outLx Hin p k Hp Hk.
    destruct (inEo p k) as [a|] eqn:Ea; [|exfalso; now apply (Hin p k)].
    pose (v := fun p k => match inEo p k with Some v => v | None => a end).
    assert (Hv1 : forall p k, p = 0 \/ p = 1 -> 0 <= k < locVolh g -> inEo p k = Some (v p k)).
    { intros q j Hq Hj. unfold v. specialize (Hin q j Hq Hj). destruct (inEo q j); [reflexivity|congruence]. }
    destruct (loc_onto g Hv Heo rc Hrc p k Hp Hk) as (i & Hi & E1 & E2 & E3).
    rewrite <- E1.
    rewrite (split_spec g Hv Heo rc Hrc _ (fun i => v (site_par g rc i) (i / 2)) sl outEo Hsl) with (i := i); auto.
    + rewrite E2, E1. unfold v. now rewrite Ea.
    + intros j Hj. apply (paste_spec g Hv Heo rc Hrc inEo v se outLx Hse Hv1 j Hj).
  - intros inLx out p Hp Hin k Hk.
    destruct (loc_onto g Hv Heo rc Hrc p k Hp Hk) as (i & Hi & E1 & E2 & E3). exists i. split; [exact E3|]. split; [exact Hi|].
    destruct (inLx i) as [a|] eqn:Ea; [|exfalso; now apply (Hin i)].
    pose (v := fun j => match inLx j with Some v => v | None => a end).
    assert (Hv1 : forall j, 0 <= j < locVol g -> inLx j = Some (v j)).
    { intros j Hj. unfold v. specialize (Hin j Hj). destruct (inLx j); [reflexivity|congruence]. }
    rewrite <- E1. rewrite (getpart_spec g Hv Heo rc Hrc inLx v (se p) out p Hp (Hse p Hp) Hv1 i Hi E2). 
    unfold v. now rewrite Ea.
Qed.

Theorem eo_neigh_main : forall g rc, valid_grid g = true -> eo_grid_ok g = true -> in_box rc (nRanksDir g) ->
  let t := label_all_sites g rc in let e := set_eo_geometry g t in
  (forall i mu up, 0 <= i < locVol g -> (mu < 4)%nat ->
  exists p k j k', loclx_parity e i = Some p /\ (p = 0 \/ p = 1) /\ loceo_of_loclx e i = Some k /\
    loclxNeigh g rc t up i mu = Some j /\ loclx_parity e j = Some (1 - p) /\
    loceo_neigh g rc t e up mu p k = Some k' /\ loclx_of_loceo e (1 - p) k' = Some j) /\
  (forall i mu up, locVol g <= i < locVol g + bordVol g -> (mu < 4)%nat ->
  exists j, loclxNeigh g rc t up i mu = Some j /\ 
   (j = -1 \/ exists p k k', loclx_parity e i = Some p /\ loceo_of_loclx e i = Some k /\ loclx_parity e j = Some (1 - p) /\
    loceo_neigh g rc t e up mu p k = Some k' /\ loclx_of_loceo e (1 - p) k' = Some j)).
Proof.
  intros g rc Hv Heo Hrc t e. pose proof (vols_nonneg g Hv) as (V0 & V1 & V2). split; intros i mu up Hi Hmu.
  - destruct (neigh_flip g Hv Heo rc Hrc i mu up ltac:(lia) Hmu) as (j & Ej & [[_ H]|(Hj & Ep & Ek)]); [lia|].
    assert (Hi' : 0 <= i < totVol g) by (unfold totVol; lia).
    destruct (eo_of g Hv Heo rc Hrc i Hi') as (F1 & F2 & F3). destruct (eo_of g Hv Heo rc Hrc j Hj) as (G1 & G2 & G3).
    rewrite Ep in G1, G3.
    exists (site_par g rc i), (i / 2), j, (j / 2). repeat split; auto. apply site_par_01; auto.
  - destruct (neigh_flip g Hv Heo rc Hrc i mu up ltac:(lia) Hmu) as (j & Ej & [[H _]|(Hj & Ep & Ek)]).
    + exists j. auto.
    + exists j. split; [exact Ej|]. right. assert (Hi' : 0 <= i < totVol g) by (unfold totVol; lia).
      destruct (eo_of g Hv Heo rc Hrc i Hi') as (F1 & F2 & F3). destruct (eo_of g Hv Heo rc Hrc j Hj) as (G1 & G2 & G3).
      rewrite Ep in G1, G3. exists (site_par g rc i), (i / 2), (j / 2). repeat split; auto.
Qed.
