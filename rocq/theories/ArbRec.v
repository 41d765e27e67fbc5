(** Recording of the paths: what the structure holds after the commands. *)
From Coq Require Import Permutation.
From Verif Require Import Base GeometryModel GeometrySpec GeometryProofs OwnerProofs LabelProofs GeoMiscProofs HaloModel Ran2Main ArbModel ArbSpec.

(** one movement: flags, site and direction of the link *)
Record mvt := mkMvt { m_start : bool; m_summ : bool; m_dag : bool; m_x : list Z; m_mu : nat }.
Definition b2z (b : bool) : Z := if b then 1 else 0.
Definition flags (m : mvt) : Z := b2z (m_start m) + 8 * b2z (m_summ m) + 2 * b2z (m_dag m).

Lemma lfm_add_ok t i a v : t i = Some a -> 0 <= a < 16 -> 0 <= v <= 2 ^ 31 - 16 -> lfm_add t i v = Some (tset t i (a + v)).
Proof. intros E Ha Hvv. unfold lfm_add. rewrite E. replace (in_int v && in_int (a + v)) with true by (unfold in_int, int_min, int_max; lia). reflexivity. Qed.

Lemma flags_bounds m : 0 <= flags m < 16.
Proof. unfold flags. destruct (m_start m), (m_summ m), (m_dag m); cbn [b2z]; lia. Qed.

Section R.
Context (g : grid).
Notation G := (glbSize g).
Lemma glb_bounds x : in_box x G -> 0 <= glblxOfCoord g x < prodZ G.
Proof. intros H. unfold glblxOfCoord. now apply lxOfCoord_bounds. Qed.
Context (Hg : 4 * prodZ (glbSize g) <= 2 ^ 31).

Lemma fits : glb_fits_int g.
Proof. unfold glb_fits_int, int_max. lia. Qed.
Lemma wrap_glb x : in_box x G -> wrap32 (glblxOfCoord g x) = glblxOfCoord g x.
Proof. intros H. apply wrap32_id. pose proof (glb_bounds x H). unfold in_int, int_min, int_max. lia. Qed.
Context (Hv : valid_grid g = true).
Lemma len4 : length G = 4%nat.
Proof. destruct (valid_grid_inv g Hv) as (n0&n1&n2&n3&l0&l1&l2&l3&->&_). reflexivity. Qed.
Lemma owner_glblx x : in_box x G -> getLoclxAndRankOfGlblx g (glblxOfCoord g x) = Some (getLoclxAndRankOfCoords g x).
Proof.
  intros H. unfold getLoclxAndRankOfGlblx. rewrite (glbCoord_valid g _ Hv fits) by now apply glb_bounds. cbn [option_map].
  unfold glblxOfCoord. now rewrite coordOfLx_lxOfCoord.
Qed.
Lemma glbVol_loc : nranks g * locVol g = prodZ G.
Proof.
  rewrite (locVol_prod g Hv), nranks_prod. destruct (valid_grid_inv g Hv) as (n0&n1&n2&n3&l0&l1&l2&l3&->&Hl'&Hn&Hll).
  rewrite Hl'. cbn [glbSize nRanksDir]. rewrite !prodZ4. ring.
Qed.
Lemma shift_box x mu d : in_box x G -> (mu < 4)%nat -> in_box (periodic_shift G x mu d) G.
Proof. intros H Hm. apply shift_in_box; [assumption|]. now rewrite len4. Qed.

Context (r : Z).
Definition rk (m : mvt) : Z := fst (getLoclxAndRankOfCoords g (m_x m)).
Definition lxm (m : mvt) : Z := snd (getLoclxAndRankOfCoords g (m_x m)) * 4 + Z.of_nat (m_mu m).
Definition code0 (m : mvt) : Z := flags m + (if rk m =? r then 16 * lxm m else 0).
Definition lid (m : mvt) : Z := glblxOfCoord g (m_x m) * 4 + Z.of_nat (m_mu m).
Definition key (m : mvt) : Z := (r + nranks g - rk m) mod nranks g * (4 * locVol g) + lxm m.
Definition entry_of (k : Z) (m : mvt) : movement_link_id := mkLink k (lid m) (key m).
Fixpoint nl_of (k : Z) (L : list mvt) : list movement_link_id :=
  match L with [] => [] | m :: L => (if rk m =? r then [] else [entry_of k m]) ++ nl_of (k + 1) L end.
Definition mv_ok (m : mvt) : Prop := in_box (m_x m) G /\ (m_mu m < 4)%nat.

Lemma nl_of_app k L M : nl_of k (L ++ M) = nl_of k L ++ nl_of (k + Z.of_nat (length L)) M.
Proof.
  revert k. induction L as [|a L IH]; intros k; cbn [app nl_of length].
  - cbn [Z.of_nat]. now rewrite Z.add_0_r.
  - rewrite IH, <- app_assoc. replace (k + Z.of_nat (S (length L))) with (k + 1 + Z.of_nat (length L)) by lia. reflexivity.
Qed.
Lemma own_bounds m : mv_ok m -> 0 <= rk m < nranks g /\ 0 <= lxm m < 4 * locVol g.
Proof.
  intros [Hb Hm]. unfold rk, lxm. destruct (getLoclxAndRankOfCoords g (m_x m)) as [q i] eqn:E.
  destruct (owner_fwd g _ Hv Hb _ _ E) as (A & B & _). cbn [fst snd]. lia.
Qed.
Context (Hr : 0 <= r < nranks g) (Hl : 64 * locVol g <= 2 ^ 31).

Lemma set_link_ok k m : mv_ok m -> set_link g r k (glblxOfCoord g (m_x m)) (m_mu m) = Some (entry_of k m).
Proof.
  intros Hm. pose proof Hm as [Hb Hmu]. pose proof (own_bounds m Hm) as [B1 B2]. pose proof (glb_bounds _ Hb) as B3.
  unfold set_link. rewrite owner_glblx by assumption. unfold entry_of, lid, key. unfold rk, lxm in *.
  destruct (getLoclxAndRankOfCoords g (m_x m)) as [q i] eqn:E. cbn [fst snd] in *.
  replace (in_int (glblxOfCoord g (m_x m) * 4 + Z.of_nat (m_mu m))) with true by (unfold in_int, int_min, int_max; lia).
  f_equal. f_equal. rewrite Z.rem_mod_nonneg by lia.
  pose proof (Z.mod_pos_bound (r + nranks g - q) (nranks g) ltac:(lia)) as B4.
  assert (B5 : (r + nranks g - q) mod nranks g * locVol g <= (nranks g - 1) * locVol g) by (apply Z.mul_le_mono_nonneg_r; lia).
  pose proof glbVol_loc as B6.
  rewrite wrap32_id; [ring|].
  set (d := (r + nranks g - q) mod nranks g) in *. assert (0 <= d * locVol g) by (apply Z.mul_nonneg_nonneg; lia).
  unfold in_int, int_min, int_max. nia.
Qed.

(** the state after the movements L *)
Definition Rec (s : paths_rec) (np M : Z) (L : list mvt) : Prop :=
  npaths s = np /\ ntot_mov s = M /\ cur_mov s = Z.of_nat (length L) /\ nonloc_list s = nl_of 0 L /\
  (forall i m, nth_error L i = Some m -> link_for_movements s (Z.of_nat i) = Some (code0 m)) /\
  (forall i, i < 0 \/ Z.of_nat (length L) < i -> link_for_movements s i = None).
Definition pending (s : paths_rec) (st su : bool) : Prop := link_for_movements s (cur_mov s) = Some (b2z st + 8 * b2z su).


Lemma use_ok s np M L st su dg x mu nx : Rec s np M L -> Z.of_nat (length L) < M ->
  link_for_movements s (cur_mov s) = Some (flags (mkMvt st su dg x mu)) -> in_box x G -> (mu < 4)%nat ->
  exists s', use_link g r (glblxOfCoord g x) mu nx s = Some s' /\ Rec s' np M (L ++ [mkMvt st su dg x mu]) /\ pending s' false false /\
    pos s' = nx /\ cur_path s' = cur_path s.
Proof.
  intros (R1 & R2 & R3 & R4 & R5 & R6) HM Hp Hx Hmu. set (m := mkMvt st su dg x mu) in *.
  assert (Hm : mv_ok m) by (split; assumption). pose proof (own_bounds m Hm) as [B1 B2]. pose proof (flags_bounds m) as B3.
  unfold use_link. rewrite owner_glblx by assumption.
  destruct (getLoclxAndRankOfCoords g x) as [q i] eqn:E.
  assert (Eq : rk m = q) by (unfold rk; cbn [m_x m]; now rewrite E).
  assert (Ei : lxm m = i * 4 + Z.of_nat mu) by (unfold lxm; cbn [m_x m_mu m]; now rewrite E).
  assert (Hlen : Z.of_nat (length (L ++ [m])) = Z.of_nat (length L) + 1) by (rewrite app_length; cbn [length]; lia).
  assert (Hnth : forall (t : table Z), (forall k, k <> Z.of_nat (length L) -> t k = link_for_movements s k) -> t (Z.of_nat (length L)) = Some (code0 m) ->
    let t' := tset t (cur_mov s + 1) 0 in
    (forall k m', nth_error (L ++ [m]) k = Some m' -> t' (Z.of_nat k) = Some (code0 m')) /\
    (forall k, k < 0 \/ Z.of_nat (length (L ++ [m])) < k -> t' k = None)).
  { intros t Ht Ht'. cbv zeta. rewrite R3. split.
    - intros k m' Hk. assert (k < length (L ++ [m]))%nat by (apply nth_error_Some; congruence). rewrite tset_neq by lia.
      destruct (Nat.lt_ge_cases k (length L)) as [Hk1|Hk1].
      + rewrite nth_error_app1 in Hk by assumption. rewrite Ht by lia. now apply R5.
      + assert (k = length L) by lia. subst k. rewrite nth_error_app2, Nat.sub_diag in Hk by lia. cbn in Hk. injection Hk as <-. assumption.
    - intros k Hk. rewrite Hlen in Hk. rewrite tset_neq by lia. rewrite Ht by lia. apply R6. lia. }
  destruct (Z.eqb_spec q r) as [Hq|Hq].
  - unfold nposs_path_flags. rewrite Z.shiftl_mul_pow2 by lia. change (2 ^ 4) with 16.
    rewrite (lfm_add_ok _ _ _ _ Hp B3) by lia. unfold switch_to_next_step. cbn [cur_mov ntot_mov].
    destruct (Z.gtb_spec (cur_mov s + 1) (ntot_mov s)) as [|_]; [lia|].
    eexists. split; [reflexivity|]. unfold Rec, pending. cbn [npaths ntot_mov cur_mov nonloc_list link_for_movements pos cur_path].
    rewrite Hlen, nl_of_app. cbn [nl_of]. rewrite Eq. destruct (Z.eqb_spec q r) as [_|]; [|contradiction]. cbn [app]. rewrite app_nil_r.
    split; [|rewrite tset_eq; auto]. repeat (split; [auto; lia|]).
    destruct (Hnth (tset (link_for_movements s) (cur_mov s) (flags m + (i * 4 + Z.of_nat mu) * 16))) as [A B].
    + intros k Hk. now rewrite tset_neq by lia.
    + rewrite R3, tset_eq. unfold code0. rewrite Eq. destruct (Z.eqb_spec q r) as [_|]; [|contradiction]. rewrite Ei. f_equal. ring.
    + split; [exact A|]. rewrite Hlen in B. exact B.
  - change (glblxOfCoord g x) with (glblxOfCoord g (m_x m)). change mu with (m_mu m) at 1. rewrite set_link_ok by assumption.
    unfold switch_to_next_step. cbn [cur_mov ntot_mov].
    destruct (Z.gtb_spec (cur_mov s + 1) (ntot_mov s)) as [|_]; [lia|].
    eexists. split; [reflexivity|]. unfold Rec, pending. cbn [npaths ntot_mov cur_mov nonloc_list link_for_movements pos cur_path].
    rewrite Hlen, nl_of_app. cbn [nl_of]. rewrite Eq. destruct (Z.eqb_spec q r) as [|_]; [contradiction|]. cbn [app]. rewrite R4.
    split; [|rewrite tset_eq; auto]. split; [assumption|]. split; [assumption|]. split; [lia|]. split; [rewrite R3; reflexivity|].
    destruct (Hnth (link_for_movements s)) as [A B]; [auto| |split; [exact A|rewrite Hlen in B; exact B]].
    rewrite R3 in Hp. rewrite Hp. unfold code0. rewrite Eq. destruct (Z.eqb_spec q r) as [|_]; [contradiction|]. f_equal. ring.
Qed.

Lemma Rec_ext s np M L t p : Rec s np M L -> (forall k, k <> Z.of_nat (length L) -> t k = link_for_movements s k) -> forall cp,
  Rec (mkRec (npaths s) (ntot_mov s) t (nonloc_list s) cp (cur_mov s) p) np M L.
Proof.
  intros (R1 & R2 & R3 & R4 & R5 & R6) Ht cp. unfold Rec. cbn [npaths ntot_mov cur_mov nonloc_list link_for_movements pos cur_path].
  repeat (split; [assumption|]). split.
  - intros i m E. assert (i < length L)%nat by (apply nth_error_Some; congruence). rewrite Ht by lia. now apply R5.
  - intros i Hi. rewrite Ht by lia. now apply R6.
Qed.

Definition landed (x : list Z) (m : nat * bool) : list Z := periodic_shift G x (fst m) (if snd m then 1 else -1).
Lemma step_ok s np M L st su x m : Rec s np M L -> Z.of_nat (length L) < M -> pending s st su -> pos s = glblxOfCoord g x -> in_box x G -> (fst m < 4)%nat ->
  exists s', exec g r (Some s) (step_cmd m) = Some s' /\
    Rec s' np M (L ++ [mkMvt st su (negb (snd m)) (if snd m then x else landed x m) (fst m)]) /\ pending s' false false /\
    pos s' = glblxOfCoord g (landed x m) /\ cur_path s' = cur_path s.
Proof.
  intros HR HM Hp Hpos Hx Hmu. pose proof HR as (R1 & R2 & R3 & R4 & R5 & R6). destruct m as [mu b]. unfold step_cmd. cbn [fst snd] in *.
  destruct b; cbn [exec].
  - unfold move_forward. rewrite R2, R3. destruct (Z.eqb_spec (Z.of_nat (length L)) M) as [|_]; [lia|].
    rewrite Hpos, (neighup_spec g x mu Hv fits Hx Hmu). rewrite wrap_glb by now apply shift_box.
    destruct (use_ok s np M L st su false x mu (glblxOfCoord g (periodic_shift G x mu 1)) HR HM) as (s' & E & A & B & C & D); auto.
    { unfold flags. cbn [m_start m_summ m_dag b2z]. rewrite Z.mul_0_r, Z.add_0_r. exact Hp. }
    exists s'. split; [exact E|]. split; [exact A|]. auto.
  - unfold move_backward. unfold pending in Hp. rewrite (lfm_add_ok _ _ _ _ Hp); [|destruct st, su; cbn [b2z]; lia|unfold DAG_LINK_FLAG; lia].
    rewrite R2, R3. destruct (Z.eqb_spec (Z.of_nat (length L)) M) as [|_]; [lia|].
    rewrite Hpos, (neighdw_spec g x mu Hv fits Hx Hmu). rewrite wrap_glb by now apply shift_box.
    set (y := periodic_shift G x mu (-1)). assert (Hy : in_box y G) by now apply shift_box.
    destruct (use_ok (mkRec (npaths s) (ntot_mov s) (tset (link_for_movements s) (cur_mov s) (b2z st + 8 * b2z su + DAG_LINK_FLAG)) (nonloc_list s) (cur_path s) (cur_mov s) (pos s))
                np M L st su true y mu (glblxOfCoord g y)) as (s' & E & A & B & C & D); auto.
    { apply Rec_ext; [assumption|]. intros k Hk. now rewrite tset_neq by lia. }
    { cbn [link_for_movements cur_mov]. rewrite tset_eq. unfold flags, DAG_LINK_FLAG. cbn [m_start m_summ m_dag b2z]. reflexivity. }
    exists s'. rewrite R2, R3, Hpos in E. split; [exact E|]. split; [exact A|]. auto.
Qed.

Fixpoint mvs (st su : bool) (x : list Z) (l : list (nat * bool)) : list mvt :=
  match l with
  | [] => []
  | m :: l => mkMvt st su (negb (snd m)) (if snd m then x else landed x m) (fst m) :: mvs false false (landed x m) l
  end.
Lemma steps_ok l : forall s np M L st su x, Rec s np M L -> Z.of_nat (length L) + Z.of_nat (length l) <= M -> pending s st su ->
  pos s = glblxOfCoord g x -> in_box x G -> Forall (fun m => (fst m < 4)%nat) l ->
  exists s', fold_left (exec g r) (map step_cmd l) (Some s) = Some s' /\ Rec s' np M (L ++ mvs st su x l) /\ cur_path s' = cur_path s.
Proof.
  induction l as [|m l IH]; intros s np M L st su x HR HM Hp Hpos Hx Hl'; cbn [map fold_left mvs].
  { exists s. rewrite app_nil_r. auto. }
  apply Forall_cons_iff in Hl' as [Hm Hl']. cbn [length] in HM.
  destruct (step_ok s np M L st su x m HR ltac:(lia) Hp Hpos Hx Hm) as (s1 & E1 & A1 & B1 & C1 & D1).
  destruct (IH s1 np M _ false false (landed x m) A1) as (s2 & E2 & A2 & D2); auto.
  { rewrite app_length. cbn [length]. lia. }
  { now apply shift_box. }
  exists s2. rewrite E1, E2. split; [reflexivity|]. rewrite <- app_assoc in A2. split; [exact A2|]. congruence.
Qed.

Context (site : Z -> list Z) (Hsite : forall i, 0 <= i < locVol g -> in_box (site i) (glbSize g) /\ getLoclxAndRankOfCoords g (site i) = (r, i)).
Definition piece_mvs (first : bool) (p : piece) : list mvt := mvs true (negb first) (site (from p)) (steps p).
Lemma mvs_length l : forall st su x, length (mvs st su x l) = length l.
Proof. induction l; intros; cbn; auto. Qed.
Lemma start_ok s np M L lx : Rec s np M L -> 0 <= lx < locVol g ->
  exists s', exec g r (Some s) (StartNewPathFromLoclx lx) = Some s' /\ Rec s' np M L /\ pending s' true false /\
    pos s' = glblxOfCoord g (site lx) /\ cur_path s' = cur_path s.
Proof.
  intros HR Hlx. cbn [exec]. unfold start_new_path_from_loclx. destruct (Hsite lx Hlx) as [Hb Ho].
  destruct (site_labels g r lx Hv Hr Hlx) as (x & Hx & Ex & _ & L2).
  assert (x = site lx) by (apply (owner_inj g); congruence). subst x. unfold rank_labels. rewrite L2.
  eexists. split; [reflexivity|]. pose proof HR as (_ & _ & R3 & _). split.
  { apply Rec_ext; [assumption|]. intros k Hk. now rewrite tset_neq by lia. }
  unfold pending. cbn [link_for_movements cur_mov pos cur_path]. rewrite tset_eq. cbn [b2z]. split; [reflexivity|]. split; [now apply wrap_glb|reflexivity].
Qed.
Lemma summ_ok s np M L : Rec s np M L -> pending s true false -> 1 <= cur_path s ->
  exists s', exec g r (Some s) SummToPreviousPath = Some s' /\ Rec s' np M L /\ pending s' true true /\ pos s' = pos s /\ cur_path s' = cur_path s - 1.
Proof.
  intros HR Hp Hc. cbn [exec]. unfold summ_to_previous_path. destruct (Z.eqb_spec (cur_path s) 0) as [|_]; [lia|].
  unfold pending in Hp. rewrite Hp. cbn [b2z]. change (Z.land (1 + 8 * 0) SUMM_TO_PREVIOUS_PATH_FLAG =? 0) with true. cbn iota.
  rewrite (lfm_add_ok _ _ _ _ Hp) by (unfold SUMM_TO_PREVIOUS_PATH_FLAG; cbn [b2z]; lia). eexists. split; [reflexivity|].
  pose proof HR as (_ & _ & R3 & _). split.
  { apply Rec_ext; [assumption|]. intros k Hk. now rewrite tset_neq by lia. }
  unfold pending. cbn [link_for_movements cur_mov pos cur_path]. rewrite tset_eq. auto.
Qed.
Lemma stop_ok s np M L : Rec s np M L -> cur_path s + 1 <= np -> exists s', exec g r (Some s) StopCurrentPath = Some s' /\ Rec s' np M L /\ cur_path s' = cur_path s + 1.
Proof.
  intros HR Hc. cbn [exec]. unfold stop_current_path. pose proof HR as (R1 & _). destruct (Z.gtb_spec (cur_path s + 1) (npaths s)) as [|_]; [lia|].
  eexists. split; [reflexivity|]. split; [|reflexivity]. apply Rec_ext; auto.
Qed.
Lemma piece_rec s np M L (first : bool) p : Rec s np M L -> piece_ok g p -> Z.of_nat (length L) + Z.of_nat (length (steps p)) <= M ->
  (if first then cur_path s + 1 <= np else 1 <= cur_path s <= np) ->
  exists s', fold_left (exec g r) (piece_cmds first p) (Some s) = Some s' /\ Rec s' np M (L ++ piece_mvs first p) /\
    cur_path s' = (if first then cur_path s + 1 else cur_path s).
Proof.
  intros HR (P1 & P2 & P3) HM Hc. unfold piece_cmds, piece_mvs. cbn [fold_left]. rewrite !fold_left_app.
  destruct (start_ok s np M L (from p) HR P1) as (s1 & E1 & A1 & B1 & C1 & D1). rewrite E1.
  destruct (Hsite _ P1) as [Hb _].
  destruct first; cbn [fold_left negb].
  - destruct (steps_ok (steps p) s1 np M L true false (site (from p)) A1 HM B1 C1 Hb P3) as (s2 & E2 & A2 & D2). rewrite E2.
    destruct (stop_ok s2 np M _ A2 ltac:(lia)) as (s3 & E3 & A3 & D3). exists s3. rewrite E3. split; [reflexivity|]. split; [assumption|lia].
  - destruct (summ_ok s1 np M L A1 B1 ltac:(lia)) as (s1' & E1' & A1' & B1' & C1' & D1'). rewrite E1'. rewrite C1 in C1'.
    destruct (steps_ok (steps p) s1' np M L true true (site (from p)) A1' HM B1' C1' Hb P3) as (s2 & E2 & A2 & D2). rewrite E2.
    destruct (stop_ok s2 np M _ A2 ltac:(lia)) as (s3 & E3 & A3 & D3). exists s3. rewrite E3. split; [reflexivity|]. split; [assumption|lia].
Qed.
Definition path_mvs (p : list piece) : list mvt := match p with [] => [] | a :: l => piece_mvs true a ++ flat_map (piece_mvs false) l end.
Lemma sums_rec (l : list piece) : forall s np M L, Rec s np M L -> Forall (piece_ok g) l -> Z.of_nat (length L) + Z.of_nat (length (flat_map steps l)) <= M -> 1 <= cur_path s <= np ->
  exists s', fold_left (exec g r) (flat_map (piece_cmds false) l) (Some s) = Some s' /\ Rec s' np M (L ++ flat_map (piece_mvs false) l) /\ cur_path s' = cur_path s.
Proof.
  induction l as [|p l IH]; intros s np M L HR Hl' HM Hc; cbn [flat_map fold_left].
  { exists s. rewrite app_nil_r. auto. }
  apply Forall_cons_iff in Hl' as [Hp Hl']. cbn [flat_map] in HM. rewrite app_length in HM. rewrite fold_left_app.
  destruct (piece_rec s np M L false p HR Hp ltac:(lia) Hc) as (s1 & E1 & A1 & D1). rewrite E1.
  destruct (IH s1 np M _ A1 Hl') as (s2 & E2 & A2 & D2); [|lia|].
  { rewrite app_length. unfold piece_mvs. rewrite mvs_length. lia. }
  exists s2. rewrite E2. rewrite app_assoc. split; [reflexivity|]. split; [assumption|congruence].
Qed.
Lemma path_rec s np M L p : Rec s np M L -> path_ok g p -> Z.of_nat (length L) + Z.of_nat (length (flat_map steps p)) <= M -> 0 <= cur_path s -> cur_path s + 1 <= np ->
  exists s', fold_left (exec g r) (path_cmds p) (Some s) = Some s' /\ Rec s' np M (L ++ path_mvs p) /\ cur_path s' = cur_path s + 1.
Proof.
  intros HR [Hne Hp] HM Hc0 Hc. destruct p as [|a l]; [congruence|]. cbn [path_cmds path_mvs flat_map] in *. rewrite app_length in HM.
  apply Forall_cons_iff in Hp as [Ha Hl']. rewrite fold_left_app.
  destruct (piece_rec s np M L true a HR Ha ltac:(lia) Hc) as (s1 & E1 & A1 & D1). rewrite E1.
  destruct (sums_rec l s1 np M _ A1 Hl') as (s2 & E2 & A2 & D2); [|lia|].
  { rewrite app_length. unfold piece_mvs. rewrite mvs_length. lia. }
  exists s2. rewrite E2, app_assoc. split; [reflexivity|]. split; [assumption|lia].
Qed.
Lemma paths_rec_ok (ps : list (list piece)) : forall s np M L, Rec s np M L -> Forall (path_ok g) ps -> Z.of_nat (length L) + n_steps ps <= M -> 0 <= cur_path s ->
  cur_path s + Z.of_nat (length ps) <= np ->
  exists s', fold_left (exec g r) (flat_map path_cmds ps) (Some s) = Some s' /\ Rec s' np M (L ++ flat_map path_mvs ps) /\ cur_path s' = cur_path s + Z.of_nat (length ps).
Proof.
  induction ps as [|p ps IH]; intros s np M L HR Hps HM Hc0 Hc; cbn [flat_map fold_left length] in *.
  { exists s. rewrite app_nil_r. repeat split; try apply HR; lia. }
  apply Forall_cons_iff in Hps as [Hp Hps]. unfold n_steps in HM. cbn [concat] in HM. rewrite flat_map_app, app_length in HM. rewrite fold_left_app.
  destruct (path_rec s np M L p HR Hp ltac:(lia) Hc0 ltac:(lia)) as (s1 & E1 & A1 & D1). rewrite E1.
  assert (HL : length (path_mvs p) = length (flat_map steps p)).
  { destruct p as [|a l]; [reflexivity|]. cbn [path_mvs flat_map]. rewrite !app_length. unfold piece_mvs at 1. rewrite mvs_length. f_equal.
    clear. induction l as [|b l IH]; [reflexivity|]. cbn [flat_map]. rewrite !app_length, IH. unfold piece_mvs. now rewrite mvs_length. }
  destruct (IH s1 np M _ A1 Hps) as (s2 & E2 & A2 & D2); [|lia|lia|].
  { unfold n_steps. rewrite app_length, HL. lia. }
  exists s2. rewrite E2, app_assoc. split; [reflexivity|]. split; [assumption|lia].
Qed.

Definition all_mvs (ps : list (list piece)) : list mvt := flat_map path_mvs ps.
Lemma record_ok ps : Forall (path_ok g) ps ->
  exists s, record_paths g r (Z.of_nat (length ps)) (n_steps ps) (flat_map path_cmds ps) = Some s /\
    Rec s (Z.of_nat (length ps)) (n_steps ps) (all_mvs ps) /\ cur_path s = Z.of_nat (length ps) /\ cur_mov s = n_steps ps.
Proof.
  intros Hps. unfold record_paths.
  destruct (paths_rec_ok ps (paths_init (Z.of_nat (length ps)) (n_steps ps)) (Z.of_nat (length ps)) (n_steps ps) []) as (s & E & A & D).
  - unfold Rec, paths_init. cbn. repeat split; auto. intros i m Hi. destruct i; discriminate Hi.
  - assumption.
  - cbn [length]. lia.
  - cbn. lia.
  - cbn. lia.
  - exists s. rewrite E. cbn [app] in A. split; [reflexivity|]. split; [exact A|]. split; [rewrite D; cbn; lia|].
    destruct A as (_ & _ & A3 & _). rewrite A3. clear. unfold n_steps, all_mvs. f_equal.
    assert (HL : forall p, length (path_mvs p) = length (flat_map steps p)).
    { intros [|a l]; [reflexivity|]. cbn [path_mvs flat_map]. rewrite !app_length. unfold piece_mvs at 1. rewrite mvs_length. f_equal.
      clear. induction l as [|b l IH]; [reflexivity|]. cbn [flat_map]. rewrite !app_length, IH. unfold piece_mvs. now rewrite mvs_length. }
    induction ps as [|p ps IH]; [reflexivity|]. cbn [flat_map concat]. rewrite flat_map_app, !app_length, HL. congruence.
Qed.
End R.
