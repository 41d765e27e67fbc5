(** Edge exchange proofs. *)
From Verif Require Import Base GeometryModel GeometrySpec GeometryProofs OwnerProofs FullLxProofs
  FullLxMain LabelProofs NeighProofs GeoMiscModel GeoMiscProofs HaloModel HaloProofs.

Section G.
Context (g : grid) (Hv : valid_grid g = true).

Definition ekey (rc : list Z) (p : Z * nat) : option Z :=
  match edgelx_of_surflx g rc (label_all_sites g rc) (fst p) (snd p) with
  | Some b => if b =? -1 then None else Some b
  | None => None
  end.

Lemma findEdges_wfold rc sched : findSurfOfEdges g rc (label_all_sites g rc) sched =
  fold_left (wstep (ekey rc) fst) (list_prod sched (seq 0 nEdges)) tempty.
Proof.
  unfold findSurfOfEdges. apply fold_ext. intros s [i mu]. unfold wstep, ekey. cbn [fst snd].
  destruct (edgelx_of_surflx _ _ _ _ _) as [b|]; [|reflexivity]. destruct (b =? -1); reflexivity.
Qed.

(** pulling one coordinate inside *)
Lemma pull_step y mu : ext_site g y -> (mu < 4)%nat -> inside g y mu = false ->
  ext_site g (pull g y mu) /\ S (n_out g (pull g y mu)) = n_out g y /\
  (forall nu, nu <> mu -> (pull g y mu).[nu] = y.[nu]) /\
  (pull g y mu).[mu] = (if y.[mu] =? -1 then 0 else (locSize g).[mu] - 1) /\
  y = move (pull g y mu) mu (2 * side y.[mu] - 1).
Proof.
  intros He Hmu Hin. pose proof (proj1 He) as Hl. destruct (out_flag g Hv y mu He Hmu Hin) as [Ho Hp].
  destruct (dir_facts g Hv mu Hmu) as (Hloc & _).
  split. { apply (ext_upd g); auto. destruct (1 <? _); destruct (_ =? _); lia. }
  split.
  { pose proof (n_out_upd g y mu (if y.[mu] =? -1 then 0 else (locSize g).[mu] - 1) Hl Hmu) as E.
    change (upd y mu (if y.[mu] =? -1 then 0 else (locSize g).[mu] - 1)) with (pull g y mu) in E.
    assert (Hvv : 0 <= (if y.[mu] =? -1 then 0 else (locSize g).[mu] - 1) < (locSize g).[mu]) by (destruct (_ =? _); lia).
    revert E. rewrite Hin. 
    replace ((0 <=? _) && (_ <? (locSize g).[mu])) with true by (symmetry; clear -Hvv; lia). cbn [negb Nat.b2n]. clear. lia. }
  split. { intros nu Hne. unfold pull. now rewrite nth_upd_neq by auto. }
  split. { unfold pull. now rewrite nth_upd_eq by congruence. }
  unfold move, pull. rewrite nth_upd_eq by congruence. rewrite upd_upd.
  transitivity (upd y mu y.[mu]); [symmetry; apply upd_same; congruence|]. f_equal.
  unfold side. destruct (Z.eqb_spec y.[mu] (-1)); lia.
Qed.

Lemma inside_pull y mu nu : nu <> mu -> inside g (pull g y mu) nu = inside g y nu.
Proof. intros H. unfold pull. apply inside_upd_neq; auto. Qed.

Definition epull (y : list Z) (mu nu : nat) : list Z := pull g (pull g y mu) nu.

Lemma edge_pair y mu nu : ext_site g y -> n_out g y = 2%nat -> (mu < nu < 4)%nat -> inside g y mu = false -> inside g y nu = false ->
  let s := epull y mu nu in
  ext_site g s /\ n_out g s = 0%nat /\ in_box s (locSize g) /\ fullLxOfCoords g s = loclxOfCoord g s /\
  coordOfLx (loclxOfCoord g s) (locSize g) = s /\
  s.[mu] = (if y.[mu] =? -1 then 0 else (locSize g).[mu] - 1) /\
  s.[nu] = (if y.[nu] =? -1 then 0 else (locSize g).[nu] - 1) /\
  y = move (move s mu (2 * side y.[mu] - 1)) nu (2 * side y.[nu] - 1) /\
  ext_site g (move s mu (2 * side y.[mu] - 1)) /\ n_out g (move s mu (2 * side y.[mu] - 1)) = 1%nat.
Proof.
  intros He Hn Hmn Hin Hin' s.
  destruct (pull_step y mu He ltac:(lia) Hin) as (H1 & H2 & H3 & H4 & H5).
  assert (Hin1 : inside g (pull g y mu) nu = false) by (rewrite inside_pull by lia; exact Hin').
  destruct (bord_pair g Hv (pull g y mu) nu H1 ltac:(lia) ltac:(lia) Hin1) as (A1 & A2 & A3 & A4 & A5 & A6).
  fold (epull y mu nu) in *. fold s in A1, A2, A3, A4, A5, A6.
  rewrite (H3 nu ltac:(lia)) in A5.
  destruct (pull_step y nu He ltac:(lia) Hin') as (B1 & B2 & B3 & B4 & B5).
  assert (Ls : length s = 4%nat) by apply A1. pose proof (proj1 He) as Hl.
  assert (Es : move s mu (2 * side y.[mu] - 1) = pull g y nu).
  { assert (Sm : s.[mu] = (if y.[mu] =? -1 then 0 else (locSize g).[mu] - 1)).
    { unfold s, epull, pull. rewrite nth_upd_neq by lia. now rewrite nth_upd_eq by (rewrite Hl; lia). }
    apply list4_ext; [unfold move; now rewrite upd_length|apply B1|].
    intros k Hk. unfold move. destruct (Nat.eq_dec mu k) as [<-|Hk1].
    - rewrite nth_upd_eq by (rewrite Ls; lia). rewrite B3 by lia. rewrite Sm.
      destruct (out_flag g Hv y mu He ltac:(lia) Hin) as [Ho _]. unfold side. destruct (Z.eqb_spec y.[mu] (-1)); lia.
    - rewrite nth_upd_neq by assumption. unfold s, epull. unfold pull at 1 3.
      destruct (Nat.eq_dec nu k) as [<-|Hk2].
      + rewrite !nth_upd_eq by (rewrite ?Hl, ?(proj1 H1); lia). now rewrite (H3 nu) by lia.
      + rewrite !nth_upd_neq by assumption. now apply H3; auto. }
  repeat split; try apply A1; try assumption.
  - unfold s, epull, pull. rewrite nth_upd_neq by lia. now rewrite nth_upd_eq by (rewrite Hl; lia).
  - unfold s, epull, pull. rewrite nth_upd_eq by (rewrite upd_length, Hl; lia). now rewrite nth_upd_neq by lia.
  - rewrite Es. exact B5.
  - rewrite Es. apply B1.
  - rewrite Es. apply B1.
  - rewrite Es. lia.
Qed.

Lemma rem_ends c l : 2 <= l -> 0 <= c < l -> (Z.rem c (l - 1) =? 0) = ((c =? 0) || (c =? l - 1)).
Proof.
  intros Hl Hc. rewrite Z.rem_mod_nonneg by lia.
  destruct (Z.eq_dec c (l - 1)) as [->|Hne].
  - rewrite Z.mod_same by lia. lia.
  - rewrite Z.mod_small by lia. lia.
Qed.

Lemma end_dir c l : 2 <= l -> let x := if c =? -1 then 0 else l - 1 in
  dsgn (negb (x =? 0)) = 2 * side c - 1 /\ ((x =? 0) || (x =? l - 1)) = true.
Proof.
  intros Hl. unfold side. destruct (c =? -1); cbn zeta; [split; reflexivity|].
  rewrite Z.eqb_refl, orb_true_r. replace (l - 1 =? 0) with false by lia. split; reflexivity.
Qed.

Lemma edge_dir_lt ie : (ie < 6)%nat -> (fst (edge_dir ie) < snd (edge_dir ie) < 4)%nat.
Proof. intros H. exact (proj2 (edge_numb_dir g Hv ie H)). Qed.

Lemma ekey_at rc y ie : in_box rc (nRanksDir g) -> ext_site g y -> n_out g y = 2%nat -> (ie < 6)%nat ->
  let mu := fst (edge_dir ie) in let nu := snd (edge_dir ie) in
  inside g y mu = false -> inside g y nu = false ->
  ekey rc (loclxOfCoord g (epull y mu nu), ie) = Some (fullLxOfCoords g y - locVol g - bordVol g).
Proof.
  intros Hrc He Hn Hie mu nu Hin Hin'. pose proof (edge_dir_lt ie Hie) as Hlt. fold mu nu in Hlt.
  destruct (edge_pair y mu nu He Hn Hlt Hin Hin') as (Hs & Hn0 & Hb & Ef & Ec & Xm & Xn & Ey & He1 & Hn1).
  destruct (out_flag g Hv y mu He ltac:(lia) Hin) as [Ho Hp]. destruct (out_flag g Hv y nu He ltac:(lia) Hin') as [Ho' Hp'].
  pose proof (lxOfCoord_bounds _ _ Hb) as Hbd. rewrite <- (locVol_prod g Hv) in Hbd.
  destruct (dir_facts g Hv mu ltac:(lia)) as (Hlm & _). destruct (dir_facts g Hv nu ltac:(lia)) as (Hln & _).
  unfold ekey, edgelx_of_surflx. cbn [fst snd]. rewrite (surjective_pairing (edge_dir ie)). fold mu nu.
  rewrite Hp, Hp'. cbn [andb negb].
  set (s := epull y mu nu) in *. set (i := loclxOfCoord g s) in *.
  destruct (loc_true_glb g Hv rc i Hrc Hbd) as (_ & E2 & _ & _ & _). rewrite E2, Ec. clear E2.
  assert (Bm : 0 <= s.[mu] < (locSize g).[mu]) by (rewrite Xm; destruct (y.[mu] =? -1); lia).
  assert (Bn : 0 <= s.[nu] < (locSize g).[nu]) by (rewrite Xn; destruct (y.[nu] =? -1); lia).
  rewrite (rem_ends s.[mu] (locSize g).[mu] Hlm Bm). rewrite (rem_ends s.[nu] (locSize g).[nu] Hln Bn).
  destruct (end_dir y.[mu] (locSize g).[mu] Hlm) as [D1 D2]. destruct (end_dir y.[nu] (locSize g).[nu] Hln) as [D3 D4].
  rewrite <- Xm in D1, D2. rewrite <- Xn in D3, D4.
  rewrite D2, D4. rewrite <- Ef. rewrite (neigh_eq g Hv) by (auto; lia). rewrite D1.
  rewrite (neigh_eq g Hv) by (auto; lia). rewrite D3. cbn [option_map]. rewrite <- Ey.
  destruct (fullLx_region g Hv y He ltac:(lia)) as [[H _]|[[H _]|[_ Hr]]]; try lia.
  replace (fullLxOfCoords g y - locVol g - bordVol g =? -1) with false by lia. reflexivity.
Qed.

Lemma move_out x mu up : ext_site g x -> (mu < 4)%nat -> isDirParallel g mu = true -> inside g x mu = true ->
  x.[mu] + dsgn up = (if up then (locSize g).[mu] else -1) ->
  let y := move x mu (dsgn up) in
  ext_site g y /\ n_out g y = S (n_out g x) /\ inside g y mu = false /\ pull g y mu = x.
Proof.
  intros He Hmu Hp Hinx Hx. unfold move.
  pose proof (proj1 He) as Hl. unfold isDirParallel in Hp. destruct (dir_facts g Hv mu Hmu) as (Hloc & _).
  assert (Hin : inside g (upd x mu (x.[mu] + dsgn up)) mu = false).
  { rewrite inside_upd_eq by assumption. rewrite Hx. destruct up; lia. }
  split. { apply (ext_upd g); auto. rewrite Hp, Hx. destruct up; lia. }
  split. 
  { pose proof (n_out_upd g x mu (x.[mu] + dsgn up) Hl Hmu) as E.
    rewrite Hinx in E. unfold inside in Hin. rewrite nth_upd_eq in Hin by congruence. rewrite Hin in E.
    cbn [negb Nat.b2n] in E. lia. }
  split; [exact Hin|].
  unfold pull. rewrite nth_upd_eq by congruence. rewrite upd_upd.
  transitivity (upd x mu x.[mu]); [|apply upd_same; congruence]. f_equal.
  rewrite Hx. unfold dsgn in Hx. destruct up; [|cbn; lia].
  destruct (Z.eqb_spec (locSize g).[mu] (-1)); lia.
Qed.

Lemma ekey_val rc i ie b : in_box rc (nRanksDir g) -> 0 <= i < locVol g -> (ie < 6)%nat -> ekey rc (i, ie) = Some b ->
  let mu := fst (edge_dir ie) in let nu := snd (edge_dir ie) in
  exists y, ext_site g y /\ n_out g y = 2%nat /\ inside g y mu = false /\ inside g y nu = false /\
    b = fullLxOfCoords g y - locVol g - bordVol g /\ i = loclxOfCoord g (epull y mu nu).
Proof.
  intros Hrc Hi Hie Hk mu nu. pose proof (edge_dir_lt ie Hie) as Hlt. fold mu nu in Hlt.
  unfold ekey, edgelx_of_surflx in Hk. cbn [fst snd] in Hk.
  rewrite (surjective_pairing (edge_dir ie)) in Hk. fold mu nu in Hk.
  revert Hk. destruct (isDirParallel g mu) eqn:Hp; cbn [negb andb]; [|discriminate].
  destruct (isDirParallel g nu) eqn:Hp'; cbn [negb andb]; [|discriminate].
  destruct (loc_true_glb g Hv rc i Hrc Hi) as (_ & E2 & He & Hn & Ei). rewrite E2.
  set (x := coordOfLx i (locSize g)) in *.
  destruct (dir_facts g Hv mu ltac:(lia)) as (Hlm & _). destruct (dir_facts g Hv nu ltac:(lia)) as (Hln & _).
  pose proof (proj1 (n_out_0 g Hv x) Hn mu ltac:(lia)) as Bm. pose proof (proj1 (n_out_0 g Hv x) Hn nu ltac:(lia)) as Bn.
  rewrite !rem_ends by assumption.
  destruct ((x.[mu] =? 0) || (x.[mu] =? (locSize g).[mu] - 1)) eqn:Em; [|cbn; discriminate].
  rewrite <- Ei at 1. rewrite (neigh_eq g Hv) by (auto; lia).
  destruct ((x.[nu] =? 0) || (x.[nu] =? (locSize g).[nu] - 1)) eqn:En; [|cbn; discriminate].
  destruct (move_out x mu (negb (x.[mu] =? 0)) He ltac:(lia) Hp) as (M1 & M2 & M3 & M4).
  { unfold inside. lia. }
  { destruct (Z.eqb_spec x.[mu] 0); cbn [negb dsgn]; lia. }
  set (y1 := move x mu _) in *.
  assert (Ey1 : y1.[nu] = x.[nu]). { unfold y1, move. now rewrite nth_upd_neq by lia. }
  destruct (move_out y1 nu (negb (x.[nu] =? 0)) M1 ltac:(lia) Hp') as (N1 & N2 & N3 & N4).
  { unfold inside. rewrite Ey1. lia. }
  { rewrite Ey1. destruct (Z.eqb_spec x.[nu] 0); cbn [negb dsgn]; lia. }
  rewrite (neigh_eq g Hv) by (auto; lia). cbn [option_map].
  set (y := move y1 nu _) in *.
  destruct (_ =? -1); [discriminate|]. intros [= <-].
  assert (Hin : inside g y mu = false).
  { unfold y, move. rewrite inside_upd_neq by lia. exact M3. }
  exists y. split; [exact N1|]. split; [lia|]. split; [exact Hin|]. split; [exact N3|]. split; [reflexivity|].
  destruct (edge_pair y mu nu N1 ltac:(lia) Hlt Hin N3) as (_ & _ & _ & Ef & _).
  rewrite <- Ef. rewrite <- Ei at 1. f_equal.
  unfold epull. unfold pull in N4 |- *. 
  rewrite (upd_comm _ mu nu) by lia. rewrite (nth_upd_neq _ mu nu) by lia. rewrite N4.
  rewrite <- M4. unfold pull. f_equal. unfold y, move. now rewrite nth_upd_neq by lia.
Qed.

Lemma two_out y ie je : n_out g y = 2%nat -> (ie < 6)%nat -> (je < 6)%nat ->
  inside g y (fst (edge_dir ie)) = false -> inside g y (snd (edge_dir ie)) = false ->
  inside g y (fst (edge_dir je)) = false -> inside g y (snd (edge_dir je)) = false -> ie = je.
Proof.
  intros Hn Hi Hj H1 H2 H3 H4. rewrite (n_out_sum g) in Hn.
  destruct ie as [|[|[|[|[|[|]]]]]]; [| | | | | |exfalso; clear -Hi; lia];
  (destruct je as [|[|[|[|[|[|]]]]]]; [| | | | | |exfalso; clear -Hj; lia]); try reflexivity;
  unfold edge_dir in *; cbn [nth edge_dirs flat_map dirs filter Nat.ltb Nat.leb map app fst snd] in *;
  rewrite ?H1, ?H2, ?H3, ?H4 in Hn; cbn [negb Nat.b2n] in Hn; exfalso; clear -Hn; lia.
Qed.

Lemma surf_edge rc sched y ie : in_box rc (nRanksDir g) -> (forall i, In i sched <-> 0 <= i < locVol g) ->
  ext_site g y -> n_out g y = 2%nat -> (ie < 6)%nat ->
  let mu := fst (edge_dir ie) in let nu := snd (edge_dir ie) in
  inside g y mu = false -> inside g y nu = false ->
  findSurfOfEdges g rc (label_all_sites g rc) sched (fullLxOfCoords g y - locVol g - bordVol g) = Some (loclxOfCoord g (epull y mu nu)).
Proof.
  intros Hrc Hs He Hn Hie mu nu Hin Hin'. rewrite findEdges_wfold. pose proof (edge_dir_lt ie Hie) as Hlt.
  destruct (edge_pair y mu nu He Hn Hlt Hin Hin') as (_ & _ & Hb & _).
  pose proof (lxOfCoord_bounds _ _ Hb) as Hbd. rewrite <- (locVol_prod g Hv) in Hbd.
  change (loclxOfCoord g (epull y mu nu)) with (fst (loclxOfCoord g (epull y mu nu), ie)).
  apply wfold_in.
  - apply in_prod; [now apply Hs|]. apply in_seq. cbn. lia.
  - now apply ekey_at.
  - intros [i je] Hi Hk. apply in_prod_iff in Hi as [Hi Hje]. apply Hs in Hi. apply in_seq in Hje.
    change nEdges with 6%nat in Hje. assert (Hje' : (je < 6)%nat) by lia.
    destruct (ekey_val rc i je _ Hrc Hi Hje' Hk) as (z & A & B & C & C' & D & E).
    assert (y = z) as <-. { apply (fullLx_inj g Hv); auto; lia. }
    assert (ie = je) as <- by (eapply two_out; eauto). cbn [fst]. exact E.
Qed.

Definition nshift2 rc mu d nu e := nshift g (nshift g rc mu d) nu e.

Lemma rank_edge_shift rc o1 o2 ie : in_box rc (nRanksDir g) -> (ie < 6)%nat -> (o1 = 0 \/ o1 = 1) -> (o2 = 0 \/ o2 = 1) ->
  rank_edge_neigh g rc o1 o2 ie = rankOfCoords g (nshift2 rc (fst (edge_dir ie)) (2 * o1 - 1) (snd (edge_dir ie)) (2 * o2 - 1)).
Proof.
  intros Hrc Hie H1 H2. pose proof (edge_dir_lt ie Hie) as Hlt. unfold rank_edge_neigh.
  rewrite (surjective_pairing (edge_dir ie)). set (mu := fst _) in *. set (nu := snd _) in *.
  pose proof (rc_bounds g Hv rc mu Hrc ltac:(lia)) as Bm. pose proof (rc_bounds g Hv rc nu Hrc ltac:(lia)) as Bn.
  unfold nshift2, nshift, periodic_shift. f_equal. rewrite !nth_upd_neq by lia.
  assert (K : forall m o, (o = 0 \/ o = 1) -> 0 <= rc.[m] < (nRanksDir g).[m] ->
     Z.rem (rc.[m] + (nRanksDir g).[m] + 2 * o - 1) (nRanksDir g).[m] = (rc.[m] + (2 * o - 1)) mod (nRanksDir g).[m]).
  { intros m o Ho Hb. rewrite Z.rem_mod_nonneg by lia.
    replace (rc.[m] + (nRanksDir g).[m] + 2 * o - 1) with (rc.[m] + (2 * o - 1) + 1 * (nRanksDir g).[m]) by ring.
    apply Z.mod_add. lia. }
  now rewrite !K by assumption.
Qed.

Lemma nshift2_back rc mu nu d e d' e' : in_box rc (nRanksDir g) -> (mu < nu < 4)%nat -> d + d' = 0 -> e + e' = 0 ->
  nshift2 (nshift2 rc mu d nu e) mu d' nu e' = rc.
Proof.
  intros Hrc Hmn Hd He. unfold nshift2. unfold nshift at 1 2.
  rewrite (shift_comm (nRanksDir g) (nshift g (nshift g rc mu d) nu e) mu nu) by lia.
  fold (nshift g (nshift g (nshift g rc mu d) nu e) nu e').
  rewrite (nshift_back g Hv (nshift g rc mu d)) by (try apply nshift_box; auto; lia).
  fold (nshift g (nshift g rc mu d) mu d'). apply nshift_back; auto; lia.
Qed.

Lemma nshift2_box rc mu nu d e : in_box rc (nRanksDir g) -> (mu < nu < 4)%nat -> in_box (nshift2 rc mu d nu e) (nRanksDir g).
Proof. intros H Hm. unfold nshift2. apply nshift_box; [exact Hv| |lia]. apply nshift_box; [exact Hv|exact H|lia]. Qed.

Lemma edge_loop_in ie s1 s2 : In (ie, (s1, s2)) edge_loop <-> (ie < 6)%nat /\ (s1 = 0 \/ s1 = 1) /\ (s2 = 0 \/ s2 = 1).
Proof.
  unfold edge_loop. rewrite !in_prod_iff, in_seq. change nEdges with 6%nat. cbn [In].
  split; intros (H1 & H2 & H3); (split; [|split]); lia.
Qed.
Lemma edge_loop_nodup : NoDup edge_loop.
Proof. unfold edge_loop, nEdges. cbn. repeat constructor; cbn; intuition congruence. Qed.

Lemma edge_match r dv ie s1 s2 : 0 <= r < nranks g -> (ie < 6)%nat -> (s1 = 0 \/ s1 = 1) -> (s2 = 0 \/ s2 = 1) -> isEdgeParallel g ie = true ->
  let m := edge_msg g (coordOfRank g r) dv ie s1 s2 (1 - s1) (1 - s2) in
  filter (fun s => (peer s =? r) && (tag s =? tag m)) (edge_sends g (coordOfRank g (peer m)) dv) =
    [edge_msg g (coordOfRank g (peer m)) dv ie s1 s2 s1 s2] /\
  coordOfRank g (peer m) = nshift2 (coordOfRank g r) (fst (edge_dir ie)) (1 - 2 * s1) (snd (edge_dir ie)) (1 - 2 * s2) /\ 0 <= peer m < nranks g.
Proof.
  intros Hr Hie H1 H2 Hp m. destruct (rank_coord_box g Hv r Hr) as [Hrc Er]. pose proof (edge_dir_lt ie Hie) as Hlt.
  assert (Ep : peer m = rankOfCoords g (nshift2 (coordOfRank g r) (fst (edge_dir ie)) (1 - 2 * s1) (snd (edge_dir ie)) (1 - 2 * s2))).
  { unfold m, edge_msg. cbn [peer]. rewrite rank_edge_shift by (auto; lia). f_equal. f_equal; ring. }
  pose proof (nshift2_box _ (fst (edge_dir ie)) (snd (edge_dir ie)) (1 - 2 * s1) (1 - 2 * s2) Hrc Hlt) as Hb.
  destruct (coordOfRank_rank g _ Hb) as [Ec Hbd]. rewrite <- Ep in Ec, Hbd.
  split; [|split; assumption].
  unfold edge_sends.
  apply (filter_unique (fun '(e, (s1, s2)) => edge_msg g (coordOfRank g (peer m)) dv e s1 s2 s1 s2)
    (fun s => (peer s =? r) && (tag s =? tag m)) (fun p => isEdgeParallel g (fst p)) edge_loop (ie, (s1, s2))).
  - exact edge_loop_nodup.
  - now apply edge_loop_in.
  - exact Hp.
  - unfold edge_msg at 1 2. cbn [peer tag]. rewrite Ec. rewrite rank_edge_shift by (auto; lia).
    rewrite nshift2_back by (auto; ring). rewrite Er, Z.eqb_refl. unfold m, edge_msg. cbn [tag]. now rewrite Z.eqb_refl.
  - intros (je & t1 & t2) Hin' Hp' Hc. apply edge_loop_in in Hin' as (Hje & Ht1 & Ht2).
    apply andb_prop in Hc as [_ Hc]. unfold m, edge_msg in Hc. cbn [tag] in Hc.
    clear -Hc H1 H2 Ht1 Ht2. assert (ie = je /\ s1 = t1 /\ s2 = t2) as (-> & -> & ->) by lia. reflexivity.
Qed.

Lemma edge_off (ie : nat) k : edgeVol g * k = 4 * (edgeVol g / 4) * k /\ Z.quot (edgeVol g * k) 4 = (edgeVol g / 4) * k.
Proof.
  rewrite edgeVol_eq. set (e := _ + _ + _ + _ + _ + _). 
  replace (4 * e) with (e * 4) by ring. rewrite Z.div_mul by lia. split; [ring|].
  replace (e * 4 * k) with (e * k * 4) by ring. now rewrite Z.quot_mul by lia.
Qed.

Lemma edge_ranges : forall ie s1 s2 je t1 t2, (ie < 6)%nat -> (je < 6)%nat -> (s1 = 0 \/ s1 = 1) -> (s2 = 0 \/ s2 = 1) -> (t1 = 0 \/ t1 = 1) -> (t2 = 0 \/ t2 = 1) ->
  forall j, covers (edge_msg g [] 1 ie s1 s2 (1-s1) (1-s2)) j -> covers (edge_msg g [] 1 je t1 t2 (1-t1) (1-t2)) j -> ie = je /\ s1 = t1 /\ s2 = t2.
Proof.
  intros ie s1 s2 je t1 t2 Hie Hje Hs1 Hs2 Ht1 Ht2 j. unfold covers, edge_msg. cbn [off len].
  rewrite !Z.quot_1_r. rewrite !(proj2 (edge_off ie _)). rewrite edgeVol_eq. rewrite (Z.mul_comm 4), Z.div_mul by lia.
  assert (Hpos : forall k, (k < 6)%nat -> 0 <= edge_dir_vol g k).
  { intros k Hk. pose proof (sizes_nonneg g Hv) as Hs. rewrite (sizes_explicit g Hv) in Hs. cbn [map app] in Hs.
    rewrite Forall_forall in Hs. apply Hs. 
    destruct k as [|[|[|[|[|[|]]]]]]; [| | | | | |exfalso; clear -Hk; lia]; cbn; tauto. }
  pose proof (Hpos 0%nat ltac:(lia)) as B0. pose proof (Hpos 1%nat ltac:(lia)) as B1. pose proof (Hpos 2%nat ltac:(lia)) as B2.
  pose proof (Hpos 3%nat ltac:(lia)) as B3. pose proof (Hpos 4%nat ltac:(lia)) as B4. pose proof (Hpos 5%nat ltac:(lia)) as B5. clear Hpos.
  assert (Off : forall k, (k < 6)%nat -> 0 <= edge_offset g k /\ edge_offset g k + edge_dir_vol g k <=
     edge_dir_vol g 0 + edge_dir_vol g 1 + edge_dir_vol g 2 + edge_dir_vol g 3 + edge_dir_vol g 4 + edge_dir_vol g 5).
  { intros k Hk. destruct k as [|[|[|[|[|[|]]]]]]; [| | | | | |exfalso; clear -Hk; lia]; cbn [edge_offset]; clear Hk; lia. }
  pose proof (Off ie Hie) as Oi. pose proof (Off je Hje) as Oj. clear Off.
  set (E := edge_dir_vol g 0 + _ + _ + _ + _ + _) in *.
  intros C1 C2.
  assert (Q : (1 - s2 + 2 * (1 - s1)) = (1 - t2 + 2 * (1 - t1))).
  { set (a := 1 - s2 + 2 * (1 - s1)) in *. set (b := 1 - t2 + 2 * (1 - t1)) in *. clearbody a b E.
    clear -Oi Oj C1 C2. 
    destruct (Z.lt_trichotomy a b) as [H|[H|H]]; [|assumption|].
    - assert (E * a + E <= E * b) by nia. lia.
    - assert (E * b + E <= E * a) by nia. lia. }
  assert (s1 = t1 /\ s2 = t2) as [-> ->] by (clear -Q Hs1 Hs2 Ht1 Ht2; lia).
  split; [|split; reflexivity].
  assert (C1' : edge_offset g ie <= j - E * (1 - t2 + 2 * (1 - t1)) < edge_offset g ie + edge_dir_vol g ie) by (clear -C1; lia).
  assert (C2' : edge_offset g je <= j - E * (1 - t2 + 2 * (1 - t1)) < edge_offset g je + edge_dir_vol g je) by (clear -C2; lia).
  clear C1 C2 Q Oi Oj. generalize dependent (j - E * (1 - t2 + 2 * (1 - t1))). intros z C1 C2. clear E.
  destruct ie as [|[|[|[|[|[|]]]]]]; [| | | | | |exfalso; clear -Hie; lia];
  (destruct je as [|[|[|[|[|[|]]]]]]; [| | | | | |exfalso; clear -Hje; lia]); try reflexivity; exfalso;
  cbn [edge_offset] in C1, C2; clear -C1 C2 B0 B1 B2 B3 B4 B5; lia.
Qed.

Lemma find_out2 y : n_out g y = 2%nat -> exists ie, (ie < 6)%nat /\
  inside g y (fst (edge_dir ie)) = false /\ inside g y (snd (edge_dir ie)) = false.
Proof.
  intros H. rewrite (n_out_sum g) in H.
  destruct (inside g y 0) eqn:E0, (inside g y 1) eqn:E1, (inside g y 2) eqn:E2, (inside g y 3) eqn:E3; cbn in H; try discriminate.
  - exists 5%nat. repeat split; auto.
  - exists 4%nat. repeat split; auto; lia.
  - exists 3%nat. repeat split; auto; lia.
  - exists 2%nat. repeat split; auto; lia.
  - exists 1%nat. repeat split; auto; lia.
  - exists 0%nat. repeat split; auto; lia.
Qed.

(** an edge site is owned by the diagonal neighbour, at the opposite corner *)
Definition opp (y : list Z) mu := upd y mu (if y.[mu] =? -1 then (locSize g).[mu] else -1).

Lemma opp_step y mu : ext_site g y -> (mu < 4)%nat -> inside g y mu = false ->
  ext_site g (opp y mu) /\ n_out g (opp y mu) = n_out g y /\ inside g (opp y mu) mu = false /\ side (opp y mu).[mu] = 1 - side y.[mu] /\
  (forall nu, nu <> mu -> (opp y mu).[nu] = y.[nu]) /\
  (opp y mu).[mu] = (if y.[mu] =? -1 then (locSize g).[mu] else -1).
Proof.
  intros He Hmu Hin. set (o := opp y mu). pose proof (proj1 He) as Hl. destruct (out_flag g Hv y mu He Hmu Hin) as [Ho Hp].
  destruct (dir_facts g Hv mu Hmu) as (Hloc & _).
  assert (Hino : inside g o mu = false).
  { unfold o, opp. rewrite inside_upd_eq by assumption. destruct (_ =? _); lia. }
  split.
  { apply (ext_upd g); auto. unfold isDirParallel in Hp. rewrite Hp. destruct (_ =? _); lia. }
  split.
  { unfold o, opp. pose proof (n_out_upd g y mu (if y.[mu] =? -1 then (locSize g).[mu] else -1) Hl Hmu) as E.
    unfold inside in Hino at 1. unfold o, opp in Hino. rewrite nth_upd_eq in Hino by congruence. rewrite Hino, Hin in E.
    cbn [negb Nat.b2n] in E. clear -E. lia. }
  split; [exact Hino|]. split; [|split].
  - unfold o, opp. rewrite nth_upd_eq by congruence. unfold side. destruct (Z.eqb_spec y.[mu] (-1)).
    + destruct (Z.eqb_spec (locSize g).[mu] (-1)); lia.
    + reflexivity.
  - intros nu Hne. unfold o, opp. now rewrite nth_upd_neq by auto.
  - unfold o, opp. now rewrite nth_upd_eq by congruence.
Qed.

Lemma edge_owner rc y ie : in_box rc (nRanksDir g) -> ext_site g y -> n_out g y = 2%nat -> (ie < 6)%nat ->
  let mu := fst (edge_dir ie) in let nu := snd (edge_dir ie) in
  inside g y mu = false -> inside g y nu = false ->
  let o := opp (opp y mu) nu in
  let rc' := nshift2 rc mu (2 * side y.[mu] - 1) nu (2 * side y.[nu] - 1) in
  ext_site g o /\ n_out g o = 2%nat /\ inside g o mu = false /\ inside g o nu = false /\
  side o.[mu] = 1 - side y.[mu] /\ side o.[nu] = 1 - side y.[nu] /\
  edgelxOfCoord g o mu nu = edgelxOfCoord g y mu nu /\
  getLoclxAndRankOfCoords g (true_glb g rc y) = (rankOfCoords g rc', loclxOfCoord g (epull o mu nu)).
Proof.
  intros Hrc He Hn Hie mu nu Hin Hin' o rc'. pose proof (proj1 He) as Hl. pose proof (edge_dir_lt ie Hie) as Hlt. fold mu nu in Hlt.
  destruct (opp_step y mu He ltac:(lia) Hin) as (A1 & A2 & A3 & A4 & A5 & A6).
  assert (Hin1 : inside g (opp y mu) nu = false).
  { unfold inside. rewrite A5 by lia. exact Hin'. }
  destruct (opp_step (opp y mu) nu A1 ltac:(lia) Hin1) as (B1 & B2 & B3 & B4 & B5 & B6). fold o in B1, B2, B3, B4, B5, B6.
  rewrite (A5 nu ltac:(lia)) in B4, B6.
  assert (Hino : inside g o mu = false). { unfold inside. rewrite B5 by lia. exact A3. }
  assert (Hno : n_out g o = 2%nat) by lia.
  split; [exact B1|]. split; [exact Hno|]. split; [exact Hino|]. split; [exact B3|].
  split; [rewrite B5 by lia; exact A4|]. split; [exact B4|].
  split; [unfold o, opp; now apply edgelx_upd|].
  pose proof (nshift_box g Hv rc mu (2 * side y.[mu] - 1) Hrc ltac:(lia)) as Hrc1.
  pose proof (nshift2_box rc mu nu (2 * side y.[mu] - 1) (2 * side y.[nu] - 1) Hrc Hlt) as Hrc'. fold rc' in Hrc'.
  destruct (edge_pair o mu nu B1 Hno Hlt Hino B3) as (_ & _ & Hb & _).
  rewrite (true_glb_shift g Hv rc y mu (2 * side y.[mu] - 1) Hrc Hl ltac:(lia)).
  rewrite (true_glb_shift g Hv _ (upd y mu _) nu (2 * side y.[nu] - 1) Hrc1) by (rewrite ?upd_length; auto; lia).
  change (nshift g (nshift g rc mu (2 * side y.[mu] - 1)) nu (2 * side y.[nu] - 1)) with rc'.
  replace (upd (upd y mu _) nu _) with (epull o mu nu).
  - rewrite (true_glb_in g Hv) by assumption. apply owner_bwd; assumption.
  - unfold epull, pull. rewrite (nth_upd_neq o mu nu) by lia. rewrite B6. rewrite (B5 mu ltac:(lia)), A6.
    rewrite (nth_upd_neq y mu nu) by lia.
    destruct (out_flag g Hv y mu He ltac:(lia) Hin) as [Om _]. destruct (out_flag g Hv y nu He ltac:(lia) Hin') as [On _].
    destruct (dir_facts g Hv mu ltac:(lia)) as (Hlm & _). destruct (dir_facts g Hv nu ltac:(lia)) as (Hln & _).
    pose proof (proj1 B1) as Lo.
    apply list4_ext; [now rewrite !upd_length|now rewrite !upd_length|]. intros k Hk.
    destruct (Nat.eq_dec nu k) as [<-|Hk2].
    + rewrite !nth_upd_eq by (rewrite upd_length, ?Lo, ?Hl; lia).
      unfold side. destruct (Z.eqb_spec y.[nu] (-1)) as [E|E].
      * destruct (Z.eqb_spec (locSize g).[nu] (-1)); lia.
      * cbn [Z.eqb Pos.eqb]. lia.
    + rewrite !(nth_upd_neq _ nu k) by assumption. destruct (Nat.eq_dec mu k) as [<-|Hk1].
      * rewrite !nth_upd_eq by (rewrite ?Lo, ?Hl; lia).
        unfold side. destruct (Z.eqb_spec y.[mu] (-1)) as [E|E].
        -- destruct (Z.eqb_spec (locSize g).[mu] (-1)); lia.
        -- cbn [Z.eqb Pos.eqb]. lia.
      * rewrite !nth_upd_neq by assumption. rewrite B5, A5 by auto. reflexivity.
Qed.

Lemma edge_tag s1 s2 k : (s1 = 0 \/ s1 = 1) -> (s2 = 0 \/ s2 = 1) -> let t := s2 + 2 * (s1 + 2 * k) in
  t / 4 = k /\ (t / 2) mod 2 = s1 /\ t mod 2 = s2.
Proof.
  intros H1 H2 t. assert (E2 : t / 2 = s1 + 2 * k). { symmetry. apply Z.div_unique with s2; unfold t; lia. }
  repeat split.
  - symmetry. apply Z.div_unique with (s2 + 2 * s1); unfold t; lia.
  - rewrite E2. symmetry. apply Z.mod_unique with k; lia.
  - symmetry. apply Z.mod_unique with (s1 + 2 * k); unfold t; lia.
Qed.

Theorem edges_main {A} (sched : Z -> list Z) (data : Z -> table A) :
  (forall q, 0 <= q < nranks g -> forall i, In i (sched q) <-> 0 <= i < locVol g) ->
  forall r, 0 <= r < nranks g ->
  exists d', updateEdges g sched data r = Some d' /\
    (forall i, ~ (locVol g + bordVol g <= i < locVol g + bordVol g + edgeVol g) -> d' i = data r i) /\
    (forall i, locVol g + bordVol g <= i < locVol g + bordVol g + edgeVol g ->
       exists gc r' i', glbCoordOfLoclx (rank_labels g r) i = Some gc /\
         getLoclxAndRankOfCoords g gc = (r', i') /\ 0 <= r' < nranks g /\ 0 <= i' < locVol g /\ d' i = data r' i').
Proof.
  intros Hs r Hr. destruct (rank_coord_box g Hv r Hr) as [Hrc Er].
  unfold updateEdges.
  set (sb := fun q => fill_send _ _). set (rc := coordOfRank g r) in *.
  destruct (recv_all_spec (fun q => edge_sends g (coordOfRank g q) 1) sb r
    (fun m => edge_msg g (coordOfRank g (peer m)) 1 (Z.to_nat (tag m / 4)) ((tag m / 2) mod 2) (tag m mod 2) ((tag m / 2) mod 2) (tag m mod 2))
    (edge_recvs g rc 1)) as (rb & E & Hrb).
  { intros m Hm. unfold edge_recvs in Hm. apply in_map_iff in Hm as ((ie & s1 & s2) & <- & Hin).
    apply filter_In in Hin as [Hin Hp]. cbn [fst] in Hp. apply edge_loop_in in Hin as (Hie & H1 & H2).
    assert (Et : tag (edge_msg g rc 1 ie s1 s2 (1 - s1) (1 - s2)) = s2 + 2 * (s1 + 2 * Z.of_nat ie)) by reflexivity.
    rewrite Et. destruct (edge_tag s1 s2 (Z.of_nat ie) H1 H2) as (T1 & T2 & T3). rewrite T1, T2, T3.
    rewrite Nat2Z.id. split; [|reflexivity].
    destruct (edge_match r 1 ie s1 s2 Hr Hie H1 H2 Hp) as (H & _). fold rc in H. rewrite Et in H. exact H. }
  rewrite E. cbn [option_map]. eexists. split; [reflexivity|]. split.
  { intros i Hi. unfold fill_from_recv. destruct ((_ <=? _) && _) eqn:Eb; [|reflexivity]. exfalso; lia. }
  intros i Hi.
  pose proof (vols_nonneg g Hv) as (V0 & V1 & V2).
  destruct (fullLx_onto g Hv i ltac:(lia)) as (y & He & Hn2 & Ei).
  assert (Hn : n_out g y = 2%nat).
  { pose proof (fullLx_region g Hv y He Hn2) as R. cbn zeta in R. rewrite Ei in R. clear -R Hi V0 V1 V2. lia. }
  destruct (find_out2 y Hn) as (ie & Hie & Hin & Hin').
  set (mu := fst (edge_dir ie)) in *. set (nu := snd (edge_dir ie)) in *.
  pose proof (edge_dir_lt ie Hie) as Hlt. fold mu nu in Hlt.
  destruct (out_flag g Hv y mu He ltac:(lia) Hin) as [Ho Hp]. destruct (out_flag g Hv y nu He ltac:(lia) Hin') as [Ho' Hp'].
  assert (Hep : isEdgeParallel g ie = true).
  { unfold isEdgeParallel. rewrite (surjective_pairing (edge_dir ie)). fold mu nu. now rewrite Hp, Hp'. }
  destruct (edge_owner rc y ie Hrc He Hn Hie Hin Hin') as (Heo & Hno & Hino & Hino' & Hso & Hso' & Hbx & Hown).
  fold mu nu in Heo, Hno, Hino, Hino', Hso, Hso', Hbx, Hown.
  set (o := opp (opp y mu) nu) in *. set (rc' := nshift2 rc mu _ nu _) in *.
  destruct (edge_pair o mu nu Heo Hno Hlt Hino Hino') as (_ & _ & Hbo & _).
  assert (Hrc' : in_box rc' (nRanksDir g)) by (apply nshift2_box; assumption).
  destruct (coordOfRank_rank g rc' Hrc') as [Ec Hr'].
  exists (true_glb g rc y), (rankOfCoords g rc'), (loclxOfCoord g (epull o mu nu)).
  split; [unfold rank_labels; fold rc; rewrite <- Ei; now apply (label_spec g Hv)|]. split; [exact Hown|].
  split; [exact Hr'|]. split.
  { pose proof (lxOfCoord_bounds _ _ Hbo) as Hx. rewrite <- (locVol_prod g Hv) in Hx. exact Hx. }
  unfold fill_from_recv. replace ((_ <=? i) && (i <? _)) with true by (symmetry; clear -Hi; lia).
  pose (s1 := 1 - side y.[mu]). pose (s2 := 1 - side y.[nu]).
  assert (Hs1 : s1 = 0 \/ s1 = 1) by (unfold s1, side; destruct (_ =? _); auto).
  assert (Hs2 : s2 = 0 \/ s2 = 1) by (unfold s2, side; destruct (_ =? _); auto).
  destruct (fullLx_edge g Hv y ie He Hn Hie Hin Hin') as [Efy Bfy]. 
  destruct (fullLx_edge g Hv o ie Heo Hno Hie Hino Hino') as [Efo _]. fold mu nu in Efy, Efo, Bfy.
  pose (m := edge_msg g rc 1 ie s1 s2 (1 - s1) (1 - s2)).
  assert (Hsd1 : 1 - s1 = side y.[mu]) by (unfold s1; ring). assert (Hsd2 : 1 - s2 = side y.[nu]) by (unfold s2; ring).
  assert (Hcov : covers m (i - (locVol g + bordVol g))).
  { unfold covers, m, edge_msg. cbn [off len]. rewrite !Z.quot_1_r, Hsd1, Hsd2, <- Ei, Efy. clear -Bfy. lia. }
  assert (Hmin : In m (edge_recvs g rc 1)).
  { unfold edge_recvs. apply in_map_iff. exists (ie, (s1, s2)). split; [reflexivity|].
    apply filter_In. split; [now apply edge_loop_in|exact Hep]. }
  rewrite (Hrb m _ Hmin Hcov).
  2:{ intros m' Hm' Hc'. unfold edge_recvs in Hm'. apply in_map_iff in Hm' as ((je & t1 & t2) & <- & Hj).
      apply filter_In in Hj as [Hj _]. apply edge_loop_in in Hj as (Hje & Ht1 & Ht2).
      destruct (edge_ranges ie s1 s2 je t1 t2 Hie Hje Hs1 Hs2 Ht1 Ht2 _ Hcov Hc') as (-> & -> & ->). reflexivity. }
  assert (Et : tag m = s2 + 2 * (s1 + 2 * Z.of_nat ie)) by reflexivity. rewrite Et.
  destruct (edge_tag s1 s2 (Z.of_nat ie) Hs1 Hs2) as (T1 & T2 & T3). rewrite T1, T2, T3. rewrite Nat2Z.id.
  destruct (edge_match r 1 ie s1 s2 Hr Hie Hs1 Hs2 Hep) as (_ & Ecp & Hpr). fold rc in Ecp, Hpr. fold m in Ecp, Hpr.
  replace (1 - 2 * s1) with (2 * side y.[mu] - 1) in Ecp by (unfold s1; ring). 
  replace (1 - 2 * s2) with (2 * side y.[nu] - 1) in Ecp by (unfold s2; ring). fold mu nu rc' in Ecp.
  assert (Epm : peer m = rankOfCoords g rc'). { rewrite <- Ecp. symmetry. now apply rank_coord_box. }
  replace (off (edge_msg g (coordOfRank g (peer m)) 1 ie s1 s2 s1 s2) + (i - (locVol g + bordVol g) - off m)) with (fullLxOfCoords g o - locVol g - bordVol g).
  2:{ unfold m, edge_msg. cbn [off]. rewrite !Z.quot_1_r, Hsd1, Hsd2, Efo, <- Ei, Efy, Hso, Hso', Hbx. fold s1 s2.
      rewrite !(proj2 (edge_off ie _)). ring. }
  rewrite Epm. unfold sb, fill_send, rank_labels. rewrite Ec.
  rewrite (surf_edge rc' (sched (rankOfCoords g rc')) o ie); auto.
Qed.
End G.
