(** Halo and edge exchange proofs. *)
From Verif Require Import Base GeometryModel GeometrySpec GeometryProofs OwnerProofs FullLxProofs
  FullLxMain LabelProofs NeighProofs GeoMiscModel GeoMiscProofs HaloModel.

(** *** matching of messages *)
Lemma filter_unique {A B} (f : A -> B) (P : B -> bool) (Q : A -> bool) (L : list A) a :
  NoDup L -> In a L -> Q a = true -> P (f a) = true ->
  (forall b, In b L -> Q b = true -> P (f b) = true -> b = a) ->
  filter P (map f (filter Q L)) = [f a].
Proof.
  intros Hnd. induction Hnd as [|x L Hx Hnd IH]; intros Hin Qa Pa Hu; [destruct Hin|].
  assert (Hnone : forall L', (forall b, In b L' -> Q b = true -> P (f b) = true -> False) -> filter P (map f (filter Q L')) = []).
  { clear. induction L' as [|y L' IH]; intros H; [reflexivity|]. cbn [filter].
    assert (IH' := IH (fun b Hb => H b (or_intror Hb))).
    destruct (Q y) eqn:Ey; [|assumption]. cbn [map filter]. destruct (P (f y)) eqn:Ep; [|assumption].
    exfalso. apply (H y); [now left|assumption|assumption]. }
  destruct Hin as [->|Hin].
  - cbn [filter]. rewrite Qa. cbn [map filter]. rewrite Pa. f_equal. apply Hnone.
    intros b Hb Qb Pb. apply Hx. rewrite <- (Hu b (or_intror Hb) Qb Pb). exact Hb.
  - assert (IH' := IH Hin Qa Pa (fun b Hb => Hu b (or_intror Hb))).
    cbn [filter]. destruct (Q x) eqn:Ex; [|exact IH']. cbn [map filter].
    destruct (P (f x)) eqn:Ep; [|exact IH'].
    exfalso. apply Hx. rewrite (Hu x (or_introl eq_refl) Ex Ep). exact Hin.
Qed.

Definition covers (m : msg) (j : Z) : Prop := off m <= j < off m + len m.

Lemma recv_all_spec {A} (sends : Z -> list msg) (sb : Z -> table A) r (src : msg -> msg) ms :
  (forall m, In m ms -> filter (fun s => (peer s =? r) && (tag s =? tag m)) (sends (peer m)) = [src m] /\ len (src m) = len m) ->
  exists rb, recv_all sends sb r ms = Some rb /\
    (forall m j, In m ms -> covers m j -> (forall m', In m' ms -> covers m' j -> m' = m) ->
       rb j = sb (peer m) (off (src m) + (j - off m))).
Proof.
  enough (H : forall t0, (forall m, In m ms -> filter (fun s => (peer s =? r) && (tag s =? tag m)) (sends (peer m)) = [src m] /\ len (src m) = len m) ->
    exists rb, fold_left (recv_one sends sb r) ms (Some t0) = Some rb /\
    (forall m j, In m ms -> covers m j -> (forall m', In m' ms -> covers m' j -> m' = m) ->
       rb j = sb (peer m) (off (src m) + (j - off m))) /\
    (forall j, (forall m, In m ms -> ~ covers m j) -> rb j = t0 j)).
  { intros Hm. destruct (H tempty Hm) as (rb & E & H1 & _). exists rb. split; assumption. }
  induction ms as [|m ms IH]; intros t0 Hm.
  { exists t0. cbn. repeat split; auto. intros m j []. }
  destruct (Hm m (or_introl eq_refl)) as [Hf Hl].
  cbn [fold_left]. unfold recv_one at 2. rewrite Hf, Hl, Z.eqb_refl.
  destruct (IH (fun j => if (off m <=? j) && (j <? off m + len m) then sb (peer m) (off (src m) + (j - off m)) else t0 j)
              (fun m' H' => Hm m' (or_intror H'))) as (rb & E & H1 & H2).
  exists rb. split; [exact E|]. split.
  - intros m' j Hin Hc Hu.
    assert (dec : forall a b : msg, {a = b} + {a <> b}) by (decide equality; apply Z.eq_dec).
    destruct (in_dec dec m' ms) as [Hin'|Hnin].
    + apply H1; auto. intros m'' Hm''. apply Hu. now right.
    + destruct Hin as [->|Hin]; [|contradiction].
      rewrite H2. 2:{ intros m'' Hm'' Hc''. apply Hnin. rewrite <- (Hu m'' (or_intror Hm'') Hc''). exact Hm''. }
      unfold covers in Hc. replace ((off m' <=? j) && (j <? off m' + len m')) with true by lia. reflexivity.
  - intros j Hn. rewrite H2 by (intros m' Hm'; apply Hn; now right).
    assert (Hc := Hn m (or_introl eq_refl)). unfold covers in Hc.
    replace ((off m <=? j) && (j <? off m + len m)) with false by lia. reflexivity.
Qed.

(** *** classes with one or two coordinates outside *)
Lemma one_flag f mu : length f = 4%nat -> Forall okflag f -> (mu < 4)%nat -> nonzero f = 1%nat -> f.[mu] <> 0 ->
  f = upd [0;0;0;0] mu f.[mu].
Proof.
  intros Hl Hf Hmu Hn Hm. destruct (length4 f Hl) as (a&b&c&d&->).
  unfold nonzero in Hn. cbn [filter] in Hn.
  destruct mu as [|[|[|[|]]]]; try lia; cbn [nth] in *; cbn [upd];
  destruct (Z.eqb_spec a 0) as [->|Ha]; destruct (Z.eqb_spec b 0) as [->|Hb];
  destruct (Z.eqb_spec c 0) as [->|Hc]; destruct (Z.eqb_spec d 0) as [->|Hd];
  cbn [negb length] in Hn; try discriminate Hn; try reflexivity; congruence.
Qed.

Lemma two_flags f mu nu : length f = 4%nat -> Forall okflag f -> (mu < nu < 4)%nat -> nonzero f = 2%nat ->
  f.[mu] <> 0 -> f.[nu] <> 0 -> f = upd (upd [0;0;0;0] mu f.[mu]) nu f.[nu].
Proof.
  intros Hl Hf Hmu Hn Hm Hm'. destruct (length4 f Hl) as (a&b&c&d&->).
  unfold nonzero in Hn. cbn [filter] in Hn.
  destruct mu as [|[|[|[|]]]]; try lia; destruct nu as [|[|[|[|]]]]; try lia; cbn [nth] in *; cbn [upd];
  destruct (Z.eqb_spec a 0) as [->|Ha]; destruct (Z.eqb_spec b 0) as [->|Hb];
  destruct (Z.eqb_spec c 0) as [->|Hc]; destruct (Z.eqb_spec d 0) as [->|Hd];
  cbn [negb length] in Hn; try discriminate Hn; try reflexivity; congruence.
Qed.

Definition side (c : Z) : Z := if c =? -1 then 0 else 1.

Section G.
Context (g : grid) (Hv : valid_grid g = true).

Lemma out_flag y mu : ext_site g y -> (mu < 4)%nat -> inside g y mu = false ->
  (y.[mu] = -1 \/ y.[mu] = (locSize g).[mu]) /\ isDirParallel g mu = true.
Proof.
  intros [Hl Hy] Hmu Hin. specialize (Hy mu Hmu). unfold inside in Hin. unfold isDirParallel.
  destruct (1 <? (nRanksDir g).[mu]); lia.
Qed.

Lemma flag_out y mu : ext_site g y -> (mu < 4)%nat -> inside g y mu = false ->
  (flags g y).[mu] = 2 * side y.[mu] - 1.
Proof.
  intros He Hmu Hin. destruct (out_flag y mu He Hmu Hin) as [Ho _].
  destruct (dir_facts g Hv mu Hmu) as (Hl & _). 
  rewrite (flags_nth g Hv) by (try apply He; assumption). unfold flag1, side.
  destruct (Z.eqb_spec y.[mu] (-1)); [reflexivity|]. destruct (Z.eqb_spec y.[mu] (locSize g).[mu]); [reflexivity|lia].
Qed.

Lemma fullLx_bord y mu : ext_site g y -> n_out g y = 1%nat -> (mu < 4)%nat -> inside g y mu = false ->
  fullLxOfCoords g y = locVol g + (bordOffset g mu + bordVolh g * side y.[mu]) + bordlxOfCoord g y mu /\
  0 <= bordlxOfCoord g y mu < bordDirVol g mu.
Proof.
  intros He Hn Hmu Hin.
  pose proof (flag_out y mu He Hmu Hin) as Hf.
  pose proof (one_flag (flags g y) mu (flags_length g Hv y (proj1 He)) (flags_ok g y) Hmu) as Hff.
  rewrite <- (n_out_nonzero g Hv y He) in Hff. specialize (Hff Hn ltac:(rewrite Hf; unfold side; destruct (_ =? _); lia)).
  rewrite Hf in Hff.
  destruct (fullLx_in g Hv y He ltac:(lia)) as (_ & E & B).
  rewrite E. clear E.
  rewrite (sizes_explicit g Hv) in *. rewrite bordVolh_eq.
  destruct (length4 y (proj1 He)) as (y0&y1&y2&y3&->).
  destruct (length4 (locSize g) (loc_len g Hv)) as (l0&l1&l2&l3&Hl).
  unfold bordlxOfCoord. rewrite Hl in *. rewrite Hff in *. clear Hff Hf He Hn Hin.
  unfold side in *. destruct (_ =? -1).
  all: destruct mu as [|[|[|[|]]]]; [| | | |exfalso; clear -Hmu; lia].
  all: match type of B with context [index_of ?a ?b] => let k := eval vm_compute in (index_of a b) in change (index_of a b) with k in * end.
  all: cbn [upd nth Z.sub Z.mul Z.opp Z.add Z.pos_sub Pos.mul kept Z.eqb Pos.eqb row_major prodZ fold_right map app] in *.
  all: unfold prefix, sumZ; cbn [firstn fold_right bordOffset dirs fold_left Nat.eqb nth].
  all: split; [ring|].
  all: match goal with |- context [bordDirVol g ?m] => set (bd := bordDirVol g m) in * end; clearbody bd.
  all: revert B; match goal with |- 0 <= ?u < _ -> 0 <= ?v < _ => replace v with u by ring end; auto.
Qed.

Lemma bordlx_upd y mu v : (mu < 4)%nat -> length y = 4%nat -> bordlxOfCoord g (upd y mu v) mu = bordlxOfCoord g y mu.
Proof.
  intros Hmu Hl. destruct (length4 y Hl) as (y0&y1&y2&y3&->).
  destruct mu as [|[|[|[|]]]]; [| | | |exfalso; clear -Hmu; lia]; reflexivity.
Qed.

Lemma edge_numb_dir ie : (ie < 6)%nat -> edge_numb (fst (edge_dir ie)) (snd (edge_dir ie)) = ie /\
  (fst (edge_dir ie) < snd (edge_dir ie) < 4)%nat.
Proof. intros H. do 6 (destruct ie as [|ie]; [vm_compute; repeat split; auto with arith; lia|]). lia. Qed.

Lemma fullLx_edge y ie : ext_site g y -> n_out g y = 2%nat -> (ie < 6)%nat ->
  let mu := fst (edge_dir ie) in let nu := snd (edge_dir ie) in
  inside g y mu = false -> inside g y nu = false ->
  fullLxOfCoords g y = locVol g + bordVol g + (edge_offset g ie + Z.quot (edgeVol g * (side y.[nu] + 2 * side y.[mu])) 4)
     + edgelxOfCoord g y mu nu /\
  0 <= edgelxOfCoord g y mu nu < edge_dir_vol g ie.
Proof.
  intros He Hn Hie mu nu Hin Hin'.
  destruct (edge_numb_dir ie Hie) as [_ Hlt]. fold mu nu in Hlt.
  pose proof (flag_out y mu He ltac:(lia) Hin) as Hf. pose proof (flag_out y nu He ltac:(lia) Hin') as Hf'.
  pose proof (two_flags (flags g y) mu nu (flags_length g Hv y (proj1 He)) (flags_ok g y) Hlt) as Hff.
  rewrite <- (n_out_nonzero g Hv y He) in Hff. 
  specialize (Hff Hn ltac:(rewrite Hf; unfold side; destruct (_ =? _); lia) ltac:(rewrite Hf'; unfold side; destruct (_ =? _); lia)).
  rewrite Hf, Hf' in Hff.
  destruct (fullLx_in g Hv y He ltac:(lia)) as (_ & E & B).
  rewrite E. clear E.
  rewrite (sizes_explicit g Hv) in *. unfold bordVol. rewrite bordVolh_eq, edgeVol_eq.
  destruct (length4 y (proj1 He)) as (y0&y1&y2&y3&->).
  destruct (length4 (locSize g) (loc_len g Hv)) as (l0&l1&l2&l3&Hl).
  unfold edgelxOfCoord. rewrite Hl in *. rewrite Hff in *. clear Hff Hf Hf' He Hn Hin Hin'.
  match goal with |- context [Z.quot (4 * ?s * ?k) 4] => replace (4 * s * k) with (s*k*4) by ring end.
  rewrite quot_mul_r by (clear; lia).
  remember (2 * (bordDirVol g 0 + bordDirVol g 1 + bordDirVol g 2 + bordDirVol g 3)) as bv eqn:Ebv.
  unfold side in *. destruct (_.[nu] =? -1); destruct (_.[mu] =? -1).
  all: destruct ie as [|[|[|[|[|[|]]]]]]; [| | | | | |exfalso; clear -Hie; lia].
  all: unfold edge_dir in mu, nu; subst mu nu; cbn [nth edge_dirs flat_map dirs filter Nat.ltb Nat.leb map app fst snd] in *.
  all: match type of B with context [index_of ?a ?b] => let k := eval vm_compute in (index_of a b) in change (index_of a b) with k in * end.
  all: cbn [upd nth Z.sub Z.mul Z.opp Z.add Z.pos_sub Pos.mul Pos.add kept Z.eqb Pos.eqb row_major prodZ fold_right map app] in B |- *.
  all: unfold prefix, sumZ; rewrite ?Ebv; cbn [firstn fold_right edge_offset dirs fold_left Nat.eqb orb nth].
  all: split; [ring|].
  all: match goal with |- context [edge_dir_vol g ?m] => set (bd := edge_dir_vol g m) in * end; clearbody bd.
  all: revert B; match goal with |- 0 <= ?u < _ -> 0 <= ?v < _ => replace v with u by ring end; auto.
Qed.

Lemma edgelx_upd y mu nu v w : (mu < nu < 4)%nat -> length y = 4%nat ->
  edgelxOfCoord g (upd (upd y mu v) nu w) mu nu = edgelxOfCoord g y mu nu.
Proof.
  intros Hmu Hl. destruct (length4 y Hl) as (y0&y1&y2&y3&->).
  destruct mu as [|[|[|[|]]]]; destruct nu as [|[|[|[|]]]]; try (exfalso; clear -Hmu; lia); reflexivity.
Qed.

(** *** surface tables *)
Definition bkey (rc : list Z) (p : Z * nat) : option Z :=
  match bordlx_of_surflx g rc (label_all_sites g rc) (fst p) (snd p) with
  | Some b => if b =? -1 then None else Some b
  | None => None
  end.

Lemma fold_ext {S B} (f h : S -> B -> S) L s : (forall s b, f s b = h s b) -> fold_left f L s = fold_left h L s.
Proof. intros H. revert s; induction L as [|b L IH]; intros s; cbn; [reflexivity|]. now rewrite H, IH. Qed.

Lemma findSurf_wfold rc sched : findSurfOfBord g rc (label_all_sites g rc) sched =
  fold_left (wstep (bkey rc) fst) (list_prod sched dirs) tempty.
Proof.
  unfold findSurfOfBord. apply fold_ext. intros s [i mu]. unfold wstep, bkey. cbn [fst snd].
  destruct (bordlx_of_surflx _ _ _ _ _) as [b|]; [|reflexivity]. destruct (b =? -1); reflexivity.
Qed.

(** the local site next to a border site *)
Definition pull (y : list Z) (mu : nat) : list Z := upd y mu (if y.[mu] =? -1 then 0 else (locSize g).[mu] - 1).

Lemma inside_upd_neq y mu nu v : mu <> nu -> inside g (upd y mu v) nu = inside g y nu.
Proof. intros H. unfold inside. now rewrite nth_upd_neq. Qed.
Lemma inside_upd_eq y mu v : length y = 4%nat -> (mu < 4)%nat -> inside g (upd y mu v) mu = (0 <=? v) && (v <? (locSize g).[mu]).
Proof. intros Hl H. unfold inside. now rewrite nth_upd_eq by congruence. Qed.

Lemma n_out_sum y : n_out g y = (Nat.b2n (negb (inside g y 0)) + Nat.b2n (negb (inside g y 1)) +
   Nat.b2n (negb (inside g y 2)) + Nat.b2n (negb (inside g y 3)))%nat.
Proof.
  rewrite n_out_count. unfold dirs. cbn [filter].
  destruct (inside g y 0), (inside g y 1), (inside g y 2), (inside g y 3); reflexivity.
Qed.

(** number of coordinates outside after an assignment *)
Lemma n_out_upd y mu v : length y = 4%nat -> (mu < 4)%nat ->
  (n_out g (upd y mu v) + Nat.b2n (negb (inside g y mu)) = n_out g y + Nat.b2n (negb ((0 <=? v) && (v <? (locSize g).[mu]))%Z))%nat.
Proof.
  intros Hl Hmu. rewrite !n_out_sum.
  destruct mu as [|[|[|[|]]]]; [| | | |exfalso; clear -Hmu; lia];
  rewrite inside_upd_eq by (clear -Hl; lia); rewrite !inside_upd_neq by (clear; lia); clear; lia.
Qed.

Lemma bord_pair y mu : ext_site g y -> n_out g y = 1%nat -> (mu < 4)%nat -> inside g y mu = false ->
  let s := pull y mu in
  ext_site g s /\ n_out g s = 0%nat /\ in_box s (locSize g) /\ fullLxOfCoords g s = loclxOfCoord g s /\
  y = move s mu (2 * side y.[mu] - 1) /\ coordOfLx (loclxOfCoord g s) (locSize g) = s.
Proof.
  intros He Hn Hmu Hin s. pose proof (proj1 He) as Hl. destruct (out_flag y mu He Hmu Hin) as [Ho Hp].
  destruct (dir_facts g Hv mu Hmu) as (Hloc & _).
  assert (Hs : ext_site g s).
  { apply (ext_upd g); auto. destruct (1 <? _); destruct (_ =? _); lia. }
  assert (Hn0 : n_out g s = 0%nat).
  { pose proof (n_out_upd y mu (if y.[mu] =? -1 then 0 else (locSize g).[mu] - 1) Hl Hmu) as E. fold s in E.
    assert (Hvv : 0 <= (if y.[mu] =? -1 then 0 else (locSize g).[mu] - 1) < (locSize g).[mu]) by (destruct (_ =? _); lia).
    change (upd y mu (if y.[mu] =? -1 then 0 else (locSize g).[mu] - 1)) with s in E.
    revert E. rewrite Hin, Hn. 
    replace ((0 <=? _) && (_ <? (locSize g).[mu])) with true by (symmetry; clear -Hvv; lia). cbn [negb Nat.b2n]. clear. lia. }
  assert (Hb : in_box s (locSize g)).
  { apply in_box_nth. rewrite (loc_len g Hv). split; [apply Hs|]. intros m Hm. now apply (proj1 (n_out_0 g Hv s)). }
  pose proof (lxOfCoord_bounds s (locSize g) Hb) as Hbd. rewrite <- (locVol_prod g Hv) in Hbd.
  assert (Ec : coordOfLx (loclxOfCoord g s) (locSize g) = s) by (apply coordOfLx_lxOfCoord; assumption).
  repeat split; try apply Hs; auto.
  - destruct (label_spec g Hv (coordOfRank g 0) s) as (_ & H & _); auto; try lia.
    { unfold coordOfRank. apply coordOfLx_in_box; [apply nRanks_pos; assumption|]. 
      pose proof (prodZ_pos _ (nRanks_pos g Hv)). lia. }
    { destruct (loc_true_glb g Hv (coordOfRank g 0) (loclxOfCoord g s)) as (_&_&_&_&H5).
      { unfold coordOfRank. apply coordOfLx_in_box; [apply nRanks_pos; assumption|]. 
        pose proof (prodZ_pos _ (nRanks_pos g Hv)). lia. }
      { exact Hbd. }
      rewrite Ec in H5. exact H5. }
  - unfold move, s, pull. rewrite nth_upd_eq by congruence. rewrite upd_upd.
    transitivity (upd y mu y.[mu]); [symmetry; apply upd_same; congruence|]. f_equal.
    unfold side. destruct (Z.eqb_spec y.[mu] (-1)); lia.
Qed.

(** the border site seen by a surface site *)
Lemma bkey_val rc i mu b : in_box rc (nRanksDir g) -> 0 <= i < locVol g -> (mu < 4)%nat -> bkey rc (i, mu) = Some b ->
  exists y, ext_site g y /\ n_out g y = 1%nat /\ inside g y mu = false /\
    b = fullLxOfCoords g y - locVol g /\ i = loclxOfCoord g (pull y mu).
Proof.
  intros Hrc Hi Hmu. unfold bkey, bordlx_of_surflx. cbn [fst snd].
  destruct (isDirParallel g mu) eqn:Hp; cbn [negb]; [|discriminate].
  destruct (loc_true_glb g Hv rc i Hrc Hi) as (_ & E2 & He & Hn & Ei). rewrite E2.
  set (x := coordOfLx i (locSize g)) in *.
  destruct (dir_facts g Hv mu Hmu) as (Hloc & _).
  assert (Key : forall up, x.[mu] + dsgn up = (if up then (locSize g).[mu] else -1) ->
    exists y, ext_site g y /\ n_out g y = 1%nat /\ inside g y mu = false /\
      loclxNeigh g rc (label_all_sites g rc) up i mu = Some (fullLxOfCoords g y) /\
      i = loclxOfCoord g (pull y mu)).
  { intros up Hx. exists (move x mu (dsgn up)). unfold move.
    pose proof (proj1 He) as Hl. unfold isDirParallel in Hp.
    assert (Hin : inside g (upd x mu (x.[mu] + dsgn up)) mu = false).
    { rewrite inside_upd_eq by assumption. rewrite Hx. destruct up; lia. }
    assert (He' : ext_site g (upd x mu (x.[mu] + dsgn up))).
    { apply (ext_upd g); auto. rewrite Hp, Hx. destruct up; lia. }
    assert (Hn' : n_out g (upd x mu (x.[mu] + dsgn up)) = 1%nat).
    { pose proof (n_out_upd x mu (x.[mu] + dsgn up) Hl Hmu) as E. rewrite Hn in E.
      assert (inside g x mu = true).
      { unfold inside. pose proof (proj1 (n_out_0 g Hv x) Hn mu Hmu). lia. }
      rewrite H in E. unfold inside in Hin. rewrite nth_upd_eq in Hin by congruence. rewrite Hin in E.
      cbn [negb Nat.b2n] in E. lia. }
    split; [exact He'|]. split; [exact Hn'|]. split; [exact Hin|]. split.
    - rewrite <- Ei at 1. rewrite (neigh_eq g Hv) by (auto; lia). reflexivity.
    - destruct (bord_pair _ mu He' Hn' Hmu Hin) as (_ & _ & _ & Ef & _ & _). rewrite <- Ef.
      rewrite <- Ei at 1. f_equal. unfold pull. rewrite nth_upd_eq by congruence. rewrite upd_upd.
      transitivity (upd x mu x.[mu]); [symmetry; apply upd_same; congruence|]. f_equal.
      rewrite Hx. unfold dsgn in Hx. destruct up; [|cbn; lia].
      destruct (Z.eqb_spec (locSize g).[mu] (-1)); lia. }
  destruct (Z.eqb_spec x.[mu] 0) as [E0|E0].
  - destruct (Key false) as (y & A & B & C & D & E); [cbn; lia|]. rewrite D. cbn [option_map].
    destruct (_ =? -1); [discriminate|]. intros [= <-]. exists y. auto.
  - destruct (Z.eqb_spec x.[mu] ((locSize g).[mu] - 1)) as [E1|E1]; [|cbn; discriminate].
    destruct (Key true) as (y & A & B & C & D & E); [cbn; lia|]. rewrite D. cbn [option_map].
    destruct (_ =? -1); [discriminate|]. intros [= <-]. exists y. auto.
Qed.

Lemma bkey_at rc y mu : in_box rc (nRanksDir g) -> ext_site g y -> n_out g y = 1%nat -> (mu < 4)%nat -> inside g y mu = false ->
  bkey rc (loclxOfCoord g (pull y mu), mu) = Some (fullLxOfCoords g y - locVol g).
Proof.
  intros Hrc He Hn Hmu Hin. destruct (bord_pair y mu He Hn Hmu Hin) as (Hs & Hn0 & Hb & Ef & Ey & Ec).
  destruct (out_flag y mu He Hmu Hin) as [Ho Hp]. pose proof (proj1 He) as Hl.
  pose proof (lxOfCoord_bounds _ _ Hb) as Hbd. rewrite <- (locVol_prod g Hv) in Hbd.
  destruct (dir_facts g Hv mu Hmu) as (Hloc & _).
  unfold bkey, bordlx_of_surflx. cbn [fst snd]. rewrite Hp. cbn [negb].
  destruct (loc_true_glb g Hv rc _ Hrc Hbd) as (_ & E2 & _ & _ & _). 
  change (lxOfCoord (pull y mu) (locSize g)) with (loclxOfCoord g (pull y mu)) in E2. rewrite E2, Ec. clear E2.
  rewrite <- Ef.
  assert (Hx : (pull y mu).[mu] = if y.[mu] =? -1 then 0 else (locSize g).[mu] - 1) by (unfold pull; now rewrite nth_upd_eq by congruence).
  destruct (fullLx_region g Hv y He ltac:(lia)) as [[H _]|[[_ Hr]|[H _]]]; try lia.
  assert (fullLxOfCoords g y - locVol g =? -1 = false) as Hne by lia.
  unfold side in Ey. destruct (Z.eqb_spec y.[mu] (-1)) as [E1|E1].
  - rewrite Hx. cbn [Z.eqb]. rewrite (neigh_eq g Hv) by (auto; lia). cbn [option_map dsgn].
    change (2*0-1) with (-1) in Ey. rewrite <- Ey. now rewrite Hne.
  - rewrite Hx. replace ((locSize g).[mu] - 1 =? 0) with false by lia. rewrite Z.eqb_refl.
    rewrite (neigh_eq g Hv) by (auto; lia). cbn [option_map dsgn].
    change (2*1-1) with 1 in Ey. rewrite <- Ey. now rewrite Hne.
Qed.

Lemma one_out y mu nu : n_out g y = 1%nat -> (mu < 4)%nat -> (nu < 4)%nat -> inside g y mu = false -> inside g y nu = false -> mu = nu.
Proof.
  intros Hn Hmu Hnu H1 H2. rewrite n_out_sum in Hn.
  destruct mu as [|[|[|[|]]]]; [| | | |exfalso; clear -Hmu; lia];
  (destruct nu as [|[|[|[|]]]]; [| | | |exfalso; clear -Hnu; lia]); try reflexivity;
  rewrite H1, H2 in Hn; cbn [negb Nat.b2n] in Hn; exfalso; clear -Hn; lia.
Qed.

Lemma surf_bord rc sched y mu : in_box rc (nRanksDir g) -> (forall i, In i sched <-> 0 <= i < locVol g) ->
  ext_site g y -> n_out g y = 1%nat -> (mu < 4)%nat -> inside g y mu = false ->
  findSurfOfBord g rc (label_all_sites g rc) sched (fullLxOfCoords g y - locVol g) = Some (loclxOfCoord g (pull y mu)).
Proof.
  intros Hrc Hs He Hn Hmu Hin. rewrite findSurf_wfold.
  destruct (bord_pair y mu He Hn Hmu Hin) as (_ & _ & Hb & _).
  pose proof (lxOfCoord_bounds _ _ Hb) as Hbd. rewrite <- (locVol_prod g Hv) in Hbd.
  change (loclxOfCoord g (pull y mu)) with (fst (loclxOfCoord g (pull y mu), mu)).
  apply wfold_in.
  - apply in_prod; [now apply Hs|]. unfold dirs. cbn. lia.
  - now apply bkey_at.
  - intros [i nu] Hi Hk. apply in_prod_iff in Hi as [Hi Hnu]. apply Hs in Hi.
    assert (Hnu' : (nu < 4)%nat) by (cbn in Hnu; lia).
    destruct (bkey_val rc i nu _ Hrc Hi Hnu' Hk) as (z & A & B & C & D & E).
    assert (y = z) as <-. { apply (fullLx_inj g Hv); auto; lia. }
    assert (mu = nu) as <- by (eapply one_out; eauto). cbn [fst]. exact E.
Qed.


(** *** neighbouring ranks *)
Lemma rank_coord_box r : 0 <= r < nranks g -> in_box (coordOfRank g r) (nRanksDir g) /\ rankOfCoords g (coordOfRank g r) = r.
Proof.
  intros Hr. rewrite nranks_prod in Hr. split.
  - apply coordOfLx_in_box; [now apply nRanks_pos|assumption].
  - apply lxOfCoord_coordOfLx; [now apply nRanks_pos|assumption].
Qed.

Lemma coordOfRank_rank p : in_box p (nRanksDir g) -> coordOfRank g (rankOfCoords g p) = p /\ 0 <= rankOfCoords g p < nranks g.
Proof. intros H. split; [now apply coordOfLx_lxOfCoord|]. rewrite nranks_prod. now apply lxOfCoord_bounds. Qed.

Definition nshift (rc : list Z) (mu : nat) (d : Z) := periodic_shift (nRanksDir g) rc mu d.

Lemma nshift_box rc mu d : in_box rc (nRanksDir g) -> (mu < 4)%nat -> in_box (nshift rc mu d) (nRanksDir g).
Proof. intros H Hmu. apply shift_in_box; [assumption|]. now rewrite (nr_len g Hv). Qed.

Lemma rc_bounds rc mu : in_box rc (nRanksDir g) -> (mu < 4)%nat -> 0 <= rc.[mu] < (nRanksDir g).[mu].
Proof. intros H Hmu. apply in_box_nth in H as [_ H]. apply H. now rewrite (nr_len g Hv). Qed.

Lemma rankNeigh_shift rc up mu : in_box rc (nRanksDir g) -> (mu < 4)%nat ->
  rankNeigh g rc up mu = rankOfCoords g (nshift rc mu (dsgn up)).
Proof.
  intros Hrc Hmu. pose proof (rc_bounds rc mu Hrc Hmu) as Hb. unfold rankNeigh, nshift, periodic_shift, dsgn.
  destruct up; f_equal; f_equal.
  - apply Z.rem_mod_nonneg; lia.
  - rewrite Z.rem_mod_nonneg by lia.
    replace (rc.[mu] + (nRanksDir g).[mu] - 1) with (rc.[mu] + -1 + 1 * (nRanksDir g).[mu]) by ring.
    apply Z.mod_add. lia.
Qed.

Lemma nshift_back rc mu d e : in_box rc (nRanksDir g) -> (mu < 4)%nat -> d + e = 0 -> nshift (nshift rc mu d) mu e = rc.
Proof.
  intros Hrc Hmu Hd. unfold nshift. rewrite shift_shift by (try assumption; rewrite (nr_len g Hv); assumption).
  rewrite Hd. apply shift_0; [assumption|]. now rewrite (nr_len g Hv).
Qed.

(** a displaced site seen from the shifted rank *)
Lemma true_glb_shift rc y mu d : in_box rc (nRanksDir g) -> length y = 4%nat -> (mu < 4)%nat ->
  true_glb g rc y = true_glb g (nshift rc mu d) (upd y mu (y.[mu] - d * (locSize g).[mu])).
Proof.
  intros Hrc Hl Hmu. pose proof (nshift_box rc mu d Hrc Hmu) as Hrc'.
  apply list4_ext; try (apply (true_glb_length g Hv); auto; now rewrite upd_length).
  intros nu Hnu. rewrite !(true_glb_nth g Hv) by (auto; now rewrite upd_length).
  destruct (Nat.eq_dec mu nu) as [<-|Hne].
  - rewrite nth_upd_eq by congruence. unfold nshift, periodic_shift.
    rewrite nth_upd_eq by (rewrite (in_box_length _ _ Hrc), (nr_len g Hv); assumption).
    destruct (dir_facts g Hv mu Hmu) as (Hloc & Hn & HG). rewrite HG.
    set (n := (nRanksDir g).[mu]) in *. set (l := (locSize g).[mu]) in *.
    pose proof (Z.div_mod (rc.[mu] + d) n ltac:(lia)) as E.
    replace ((rc.[mu] + d) mod n * l + (y.[mu] - d * l)) with
      (rc.[mu] * l + y.[mu] + (- ((rc.[mu] + d) / n)) * (n * l)) by nia.
    rewrite Z.mod_add; [reflexivity|nia].
  - rewrite nth_upd_neq by assumption. unfold nshift, periodic_shift. now rewrite nth_upd_neq by assumption.
Qed.

Lemma true_glb_in rc s : in_box rc (nRanksDir g) -> in_box s (locSize g) -> true_glb g rc s = join_coords g rc s.
Proof.
  intros Hrc Hs. unfold true_glb. fold (join_coords g rc s).
  destruct (join_split g rc s Hv Hrc Hs) as (Hb & _). clear -Hb.
  revert Hb. generalize (join_coords g rc s). generalize (glbSize g). intros G x H.
  induction H as [|c n x G Hc Hr IH]; [reflexivity|]. cbn [map2]. rewrite IH. f_equal. now apply Z.mod_small.
Qed.

(** *** matching *)
Lemma halo_loop_in mu so : In (mu, so) halo_loop <-> (mu < 4)%nat /\ (so = 0 \/ so = 1).
Proof.
  unfold halo_loop. rewrite in_prod_iff. unfold dirs. cbn [In].
  split; intros [H1 H2]; (split; [clear -H1|clear -H2]); lia.
Qed.
Lemma halo_loop_nodup : NoDup halo_loop.
Proof. unfold halo_loop, dirs. cbn. repeat constructor; cbn; intuition congruence. Qed.

Lemma halo_match r dv mu so : 0 <= r < nranks g -> (mu < 4)%nat -> (so = 0 \/ so = 1) -> isDirParallel g mu = true ->
  let m := halo_msg g (coordOfRank g r) dv mu so (1 - so) in
  filter (fun s => (peer s =? r) && (tag s =? tag m)) (halo_sends g (coordOfRank g (peer m)) dv) =
    [halo_msg g (coordOfRank g (peer m)) dv mu so so] /\
  coordOfRank g (peer m) = nshift (coordOfRank g r) mu (1 - 2 * so) /\ 0 <= peer m < nranks g.
Proof.
  intros Hr Hmu Hso Hp m. destruct (rank_coord_box r Hr) as [Hrc Er].
  assert (Ep : peer m = rankOfCoords g (nshift (coordOfRank g r) mu (1 - 2 * so))).
  { unfold m, halo_msg. cbn [peer]. rewrite rankNeigh_shift by assumption. f_equal. f_equal.
    destruct Hso as [-> | ->]; reflexivity. }
  pose proof (nshift_box _ mu (1 - 2 * so) Hrc Hmu) as Hb.
  destruct (coordOfRank_rank _ Hb) as [Ec Hbd]. rewrite <- Ep in Ec, Hbd.
  split; [|split; assumption].
  unfold halo_sends. 
  apply (filter_unique (fun '(mu0, sendOri) => halo_msg g (coordOfRank g (peer m)) dv mu0 sendOri sendOri)
    (fun s => (peer s =? r) && (tag s =? tag m)) (fun p => isDirParallel g (fst p)) halo_loop (mu, so)).
  - exact halo_loop_nodup.
  - now apply halo_loop_in.
  - exact Hp.
  - unfold halo_msg at 1 2. cbn [peer tag]. rewrite Ec. rewrite rankNeigh_shift by assumption.
    replace (dsgn (so =? 1)) with (- (1 - 2 * so)) by (destruct Hso as [-> | ->]; reflexivity).
    rewrite nshift_back by (auto; ring). rewrite Er, Z.eqb_refl. unfold m, halo_msg. cbn [tag]. now rewrite Z.eqb_refl.
  - intros [mu' so'] Hin' Hp' Hc. apply halo_loop_in in Hin' as [Hmu' Hso'].
    apply andb_prop in Hc as [_ Hc]. unfold m, halo_msg in Hc. cbn [tag] in Hc.
    clear -Hc Hso Hso' . f_equal; lia.
Qed.

Lemma halo_ranges dv : forall mu so mu' so', (mu < 4)%nat -> (mu' < 4)%nat -> (so = 0 \/ so = 1) -> (so' = 0 \/ so' = 1) -> dv = 1 ->
  forall j, covers (halo_msg g [] dv mu so (1-so)) j -> covers (halo_msg g [] dv mu' so' (1-so')) j -> mu = mu' /\ so = so'.
Proof.
  intros mu so mu' so' Hmu Hmu' Hso Hso' -> j. unfold covers, halo_msg. cbn [off len]. rewrite !Z.quot_1_r, !bordVolh_eq.
  pose proof (sizes_nonneg g Hv) as Hs. rewrite (sizes_explicit g Hv) in Hs.
  cbn [map app] in Hs.
  apply Forall_inv_tail in Hs. pose proof (Forall_inv Hs) as B0. apply Forall_inv_tail in Hs. pose proof (Forall_inv Hs) as B1.
  apply Forall_inv_tail in Hs. pose proof (Forall_inv Hs) as B2. apply Forall_inv_tail in Hs. pose proof (Forall_inv Hs) as B3.
  clear Hs. cbv beta in *.
  destruct mu as [|[|[|[|]]]]; [| | | |exfalso; clear -Hmu; lia];
  (destruct mu' as [|[|[|[|]]]]; [| | | |exfalso; clear -Hmu'; lia]); cbn [bordOffset];
  destruct Hso as [-> | ->]; destruct Hso' as [-> | ->]; clear -B0 B1 B2 B3; lia.
Qed.

Lemma find_out y : n_out g y = 1%nat -> exists mu, (mu < 4)%nat /\ inside g y mu = false.
Proof.
  intros H. rewrite n_out_sum in H.
  destruct (inside g y 0) eqn:E0; [|exists 0%nat; split; [lia|assumption]].
  destruct (inside g y 1) eqn:E1; [|exists 1%nat; split; [lia|assumption]].
  destruct (inside g y 2) eqn:E2; [|exists 2%nat; split; [lia|assumption]].
  destruct (inside g y 3) eqn:E3; [|exists 3%nat; split; [lia|assumption]].
  discriminate.
Qed.

(** a border site is owned by the neighbouring rank, at the opposite end *)
Lemma bord_owner rc y mu : in_box rc (nRanksDir g) -> ext_site g y -> n_out g y = 1%nat -> (mu < 4)%nat -> inside g y mu = false ->
  let o := upd y mu (if y.[mu] =? -1 then (locSize g).[mu] else -1) in
  let rc' := nshift rc mu (2 * side y.[mu] - 1) in
  ext_site g o /\ n_out g o = 1%nat /\ inside g o mu = false /\ side o.[mu] = 1 - side y.[mu] /\
  bordlxOfCoord g o mu = bordlxOfCoord g y mu /\
  getLoclxAndRankOfCoords g (true_glb g rc y) = (rankOfCoords g rc', loclxOfCoord g (pull o mu)).
Proof.
  intros Hrc He Hn Hmu Hin o rc'. pose proof (proj1 He) as Hl. destruct (out_flag y mu He Hmu Hin) as [Ho Hp].
  destruct (dir_facts g Hv mu Hmu) as (Hloc & _).
  assert (Hino : inside g o mu = false).
  { unfold o. rewrite inside_upd_eq by assumption. destruct (_ =? _); lia. }
  assert (Heo : ext_site g o).
  { apply (ext_upd g); auto. unfold isDirParallel in Hp. rewrite Hp. destruct (_ =? _); lia. }
  assert (Hno : n_out g o = 1%nat).
  { unfold o. pose proof (n_out_upd y mu (if y.[mu] =? -1 then (locSize g).[mu] else -1) Hl Hmu) as E.
    unfold inside in Hino at 1. unfold o in Hino. rewrite nth_upd_eq in Hino by congruence. rewrite Hino, Hin, Hn in E.
    cbn [negb Nat.b2n] in E. clear -E. lia. }
  assert (Hso : side o.[mu] = 1 - side y.[mu]).
  { unfold o. rewrite nth_upd_eq by congruence. unfold side. destruct (Z.eqb_spec y.[mu] (-1)).
    - destruct (Z.eqb_spec (locSize g).[mu] (-1)); lia.
    - reflexivity. }
  split; [exact Heo|]. split; [exact Hno|]. split; [exact Hino|]. split; [exact Hso|].
  split; [now apply bordlx_upd|].
  pose proof (nshift_box rc mu (2 * side y.[mu] - 1) Hrc Hmu) as Hrc'. fold rc' in Hrc'.
  destruct (bord_pair o mu Heo Hno Hmu Hino) as (_ & _ & Hb & _).
  rewrite (true_glb_shift rc y mu (2 * side y.[mu] - 1) Hrc Hl Hmu). fold rc'.
  replace (upd y mu _) with (pull o mu).
  - rewrite true_glb_in by assumption. apply owner_bwd; assumption.
  - unfold pull, o. rewrite nth_upd_eq by congruence. rewrite upd_upd. f_equal.
    unfold side. destruct (Z.eqb_spec y.[mu] (-1)) as [E|E].
    + destruct (Z.eqb_spec (locSize g).[mu] (-1)); lia.
    + destruct Ho as [Ho|Ho]; [lia|]. rewrite Ho. cbn [Z.eqb Pos.eqb]. lia.
Qed.

Lemma vols_nonneg : 0 < locVol g /\ 0 <= bordVol g /\ 0 <= edgeVol g.
Proof.
  pose proof (sizes_nonneg g Hv) as Hs. split.
  { rewrite (locVol_prod g Hv). apply prodZ_pos. now apply locSize_pos. }
  pose proof (prefix_mono _ Hs 1 9 ltac:(lia)) as H1. pose proof (prefix_mono _ Hs 9 33 ltac:(lia)) as H2.
  rewrite (sizes_len g) in *. specialize (H1 ltac:(lia)). specialize (H2 ltac:(lia)).
  rewrite (prefix_1 g Hv), (prefix_9 g Hv) in *.
  assert (E33 : prefix (sizes g) 33 = locVol g + bordVol g + edgeVol g).
  { rewrite <- (sizes_sum g Hv), <- prefix_all. now rewrite (sizes_len g). }
  lia.
Qed.

Theorem halo_main {A} (sched : Z -> list Z) (data : Z -> table A) :
  (forall q, 0 <= q < nranks g -> forall i, In i (sched q) <-> 0 <= i < locVol g) ->
  forall r, 0 <= r < nranks g ->
  exists d', updateHalo g sched data r = Some d' /\
    (forall i, ~ (locVol g <= i < locVol g + bordVol g) -> d' i = data r i) /\
    (forall i, locVol g <= i < locVol g + bordVol g ->
       exists gc r' i', glbCoordOfLoclx (rank_labels g r) i = Some gc /\
         getLoclxAndRankOfCoords g gc = (r', i') /\ 0 <= r' < nranks g /\ 0 <= i' < locVol g /\ d' i = data r' i').
Proof.
  intros Hs r Hr. destruct (rank_coord_box r Hr) as [Hrc Er].
  unfold updateHalo.
  set (sb := fun q => fill_send _ _). set (rc := coordOfRank g r) in *.
  destruct (recv_all_spec (fun q => halo_sends g (coordOfRank g q) 1) sb r
    (fun m => halo_msg g (coordOfRank g (peer m)) 1 (Z.to_nat (tag m / 2)) (tag m mod 2) (tag m mod 2))
    (halo_recvs g rc 1)) as (rb & E & Hrb).
  { intros m Hm. unfold halo_recvs in Hm. apply in_map_iff in Hm as ([mu so] & <- & Hin).
    apply filter_In in Hin as [Hin Hp]. cbn [fst] in Hp. apply halo_loop_in in Hin as [Hmu Hso].
    assert (Et : tag (halo_msg g rc 1 mu so (1 - so)) = so + 2 * Z.of_nat mu) by reflexivity.
    rewrite Et. 
    replace ((so + 2 * Z.of_nat mu) / 2) with (Z.of_nat mu) by (clear -Hso; apply Z.div_unique with so; lia).
    replace ((so + 2 * Z.of_nat mu) mod 2) with so by (clear -Hso; apply Z.mod_unique with (Z.of_nat mu); lia).
    rewrite Nat2Z.id. split; [|reflexivity].
    destruct (halo_match r 1 mu so Hr Hmu Hso Hp) as (H & _). fold rc in H. rewrite Et in H. exact H. }
  rewrite E. cbn [option_map]. eexists. split; [reflexivity|]. split.
  { intros i Hi. unfold fill_from_recv. destruct ((_ <=? _) && _) eqn:Eb; [|reflexivity]. exfalso; lia. }
  intros i Hi.
  pose proof vols_nonneg as (V0 & V1 & V2).
  destruct (fullLx_onto g Hv i ltac:(lia)) as (y & He & Hn2 & Ei).
  assert (Hn : n_out g y = 1%nat).
  { pose proof (fullLx_region g Hv y He Hn2) as R. cbn zeta in R. rewrite Ei in R. clear -R Hi V1 V2. lia. }
  destruct (find_out y Hn) as (mu & Hmu & Hin).
  destruct (out_flag y mu He Hmu Hin) as [Ho Hp].
  destruct (bord_owner rc y mu Hrc He Hn Hmu Hin) as (Heo & Hno & Hino & Hso & Hbx & Hown).
  set (o := upd y mu _) in *. set (rc' := nshift rc mu _) in *.
  destruct (bord_pair o mu Heo Hno Hmu Hino) as (_ & _ & Hbo & _).
  assert (Hrc' : in_box rc' (nRanksDir g)) by (apply nshift_box; assumption).
  destruct (coordOfRank_rank rc' Hrc') as [Ec Hr'].
  exists (true_glb g rc y), (rankOfCoords g rc'), (loclxOfCoord g (pull o mu)).
  split; [unfold rank_labels; fold rc; rewrite <- Ei; now apply (label_spec g Hv)|]. split; [exact Hown|].
  split; [exact Hr'|]. split.
  { pose proof (lxOfCoord_bounds _ _ Hbo) as Hx. rewrite <- (locVol_prod g Hv) in Hx. exact Hx. }
  unfold fill_from_recv. replace ((locVol g <=? i) && (i <? locVol g + bordVol g)) with true by lia.
  pose (so := 1 - side y.[mu]).
  assert (Hso' : so = 0 \/ so = 1) by (unfold so, side; destruct (_ =? _); auto).
  destruct (fullLx_bord y mu He Hn Hmu Hin) as [Efy Bfy]. destruct (fullLx_bord o mu Heo Hno Hmu Hino) as [Efo _].
  pose (m := halo_msg g rc 1 mu so (1 - so)).
  assert (Hside : 1 - so = side y.[mu]) by (unfold so; ring).
  assert (Hcov : covers m (i - locVol g)).
  { unfold covers, m, halo_msg. cbn [off len]. rewrite !Z.quot_1_r, Hside, <- Ei, Efy. clear -Bfy. lia. }
  assert (Hmin : In m (halo_recvs g rc 1)).
  { unfold halo_recvs. apply in_map_iff. exists (mu, so). split; [reflexivity|].
    apply filter_In. split; [now apply halo_loop_in|exact Hp]. }
  rewrite (Hrb m (i - locVol g) Hmin Hcov).
  2:{ intros m' Hm' Hc'. unfold halo_recvs in Hm'. apply in_map_iff in Hm' as ([mu' so2] & <- & Hin').
      apply filter_In in Hin' as [Hin' _]. apply halo_loop_in in Hin' as [Hmu' Hso2].
      destruct (halo_ranges 1 mu so mu' so2 Hmu Hmu' Hso' Hso2 eq_refl (i - locVol g) Hcov Hc') as [-> ->]. reflexivity. }
  assert (Et : tag m = so + 2 * Z.of_nat mu) by reflexivity. rewrite Et.
  replace ((so + 2 * Z.of_nat mu) / 2) with (Z.of_nat mu) by (clear -Hso'; apply Z.div_unique with so; lia).
  replace ((so + 2 * Z.of_nat mu) mod 2) with so by (clear -Hso'; apply Z.mod_unique with (Z.of_nat mu); lia).
  rewrite Nat2Z.id.
  destruct (halo_match r 1 mu so Hr Hmu Hso' Hp) as (_ & Ecp & Hpr). fold rc in Ecp, Hpr. fold m in Ecp, Hpr.
  replace (1 - 2 * so) with (2 * side y.[mu] - 1) in Ecp by (unfold so; ring). fold rc' in Ecp.
  assert (Epm : peer m = rankOfCoords g rc'). { rewrite <- Ecp. symmetry. now apply rank_coord_box. }
  replace (off (halo_msg g (coordOfRank g (peer m)) 1 mu so so) + (i - locVol g - off m)) with (fullLxOfCoords g o - locVol g).
  2:{ unfold m, halo_msg. cbn [off]. rewrite !Z.quot_1_r, Hside, Efo, <- Ei, Efy, Hso, Hbx. unfold so. ring. }
  rewrite Epm. unfold sb, fill_send, rank_labels. rewrite Ec.
  rewrite (surf_bord rc' (sched (rankOfCoords g rc')) o mu); auto.
Qed.
End G.
