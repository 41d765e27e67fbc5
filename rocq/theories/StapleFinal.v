(** The staples computed by the ranks are those of the periodic lattice: the whole routine. *)
From Verif Require Import Base GeometryModel GeometrySpec GeometryProofs OwnerProofs FullLxProofs
  FullLxMain LabelProofs NeighProofs GeoMiscModel GeoMiscProofs HaloModel HaloProofs EdgeProofs Geometry_final StapleModel StapleSpec StapleProofs StapleMain.

Section G.
Context (g : grid) (Hv : valid_grid g = true).
Context (surf_sched : Z -> list Z) (Hsurf : forall q, 0 <= q < nranks g -> forall i, In i (surf_sched q) <-> 0 <= i < locVol g).
Context {T : Type} (mul muldag dagmul add : T -> T -> T).
Context (ord : Z -> nat -> nat -> nat -> Z -> Z -> list Z) (Ho : all_orders ord).
Context (U : list Z -> nat -> T).

Lemma dir_unique mu nu b : (mu < 4)%nat -> (nu < 4)%nat -> bordOffset g mu <= b < bordOffset g mu + bordDirVol g mu ->
  bordOffset g nu <= b < bordOffset g nu + bordDirVol g nu -> mu = nu.
Proof.
  intros Hmu Hnu H1 H2. apply (halo_ranges g Hv 1 mu 1 nu 1 Hmu Hnu (or_intror eq_refl) (or_intror eq_refl) eq_refl b);
  unfold covers, halo_msg; cbn [off len]; rewrite !Z.quot_1_r; lia.
Qed.
Lemma dir_par mu b : bordOffset g mu <= b < bordOffset g mu + bordDirVol g mu -> isDirParallel g mu = true.
Proof. unfold bordDirVol. destruct (isDirParallel g mu); [reflexivity|lia]. Qed.

Section Conf.
Context (conf : Z -> @qfield T) (out : Z -> @sfield T) (sb : Z -> @qfield T).
Context (Hc : forall q i, 0 <= q < nranks g -> 0 <= i < locVol g -> cgood g U q (conf q) i).

Lemma sb1_val q mu b s k : 0 <= q < nranks g -> (mu < 4)%nat -> bordOffset g mu <= b < bordOffset g mu + bordDirVol g mu ->
  surflxOfBordlx g surf_sched q b = Some s -> steps_1 g ord surf_sched conf sb q b k = conf q s k.
Proof.
  intros Hq Hmu Hb Es. pose proof (bord_range g Hv mu Hmu) as [R1 R2]. unfold steps_1, fill_lower_surface.
  apply (PAR_gets ord Ho) with (P := fun sb : @qfield T => sb b k = conf q s k) (i := b); [|lia|].
  - intros i s' _ E. destruct (surflxOfBordlx g surf_sched q i) as [s2|] eqn:E2; [|exact E]. unfold quad_put. destruct (Z.eqb_spec b i) as [->|]; [|exact E]. congruence.
  - intros s'. rewrite Es. unfold quad_put. now rewrite Z.eqb_refl.
Qed.
Lemma conf3_ok r rb : 0 <= r < nranks g -> exchange g 0 (steps_1 g ord surf_sched conf sb) r = Some rb ->
  let c := finish_lower_surface g ord r rb (conf r) in
  (forall i k, ~ (locVol g + bordVolh g <= i < locVol g + bordVol g) -> c i k = conf r i k) /\ (forall i, here g i -> cgood g U r c i).
Proof.
  intros Hr Erb c.
  assert (C1 : forall i k, ~ (locVol g + bordVolh g <= i < locVol g + bordVol g) -> c i k = conf r i k).
  { intros i k Hi. unfold c, finish_lower_surface. apply (PAR_keep ord Ho) with (P := fun s : @qfield T => s i k = conf r i k); [|reflexivity].
    intros j s Hj E. unfold quad_put. destruct (Z.eqb_spec i (locVol g + bordVolh g + j)) as [->|]; [|exact E]. exfalso. unfold bordVol in Hi. lia. }
  split; [exact C1|]. pose proof (vols_nonneg g Hv) as (V0 & V1 & V2). intros i [Hi|Hi] x nu Hx Hnu.
  { rewrite C1 by (unfold bordVol in *; lia). now apply Hc. }
  set (b := i - locVol g - bordVolh g). assert (Hb0 : 0 <= b < bordVolh g) by (unfold b, bordVol in *; lia).
  assert (Ei : i = locVol g + bordVolh g + b) by (unfold b; lia).
  destruct (bord_dir g Hv b Hb0) as (mu & Hmu & Hb). pose proof (dir_par mu b Hb) as Hp.
  assert (E : c i nu = rb (bordVolh g + b) nu).
  { unfold c, finish_lower_surface. apply (PAR_gets ord Ho) with (P := fun s : @qfield T => s i nu = rb (bordVolh g + b) nu) (i := b); [|exact Hb0|].
    - intros j s Hj E. unfold quad_put. destruct (Z.eqb_spec i (locVol g + bordVolh g + j)) as [E'|]; [|exact E]. replace j with b by lia. reflexivity.
    - intros s. unfold quad_put. now rewrite <- Ei, Z.eqb_refl. }
  rewrite E. destruct (exchange_ok g Hv 0 (steps_1 g ord surf_sched conf sb) r ltac:(auto) Hr) as (rb' & Erb' & X). rewrite Erb in Erb'. injection Erb' as <-.
  destruct (X mu b Hmu Hp Hb) as (q & Hq & Eq & F). specialize (F nu). rewrite Z.mul_0_r, Z.add_0_l in F. replace (bordVolh g * (1 - 0)) with (bordVolh g) in F by ring.
  rewrite F. destruct (lower_surface g Hv q Hq surf_sched mu b (Hsurf q Hq) Hmu Hp Hb) as (s & z & Es & Hs & Hz & _ & Hall).
  rewrite (sb1_val q mu b s nu Hq Hmu Hb Es). rewrite (Hc q s Hq Hs z nu Hz Hnu). f_equal. f_equal.
  destruct (rank_coord_box g Hv r Hr) as [Hrc _].
  assert (G : gc g r (locVol g + (bordVolh g + b)) z).
  { apply Hall; [exact Hr|]. rewrite Eq. symmetry. apply (nshift_back g Hv); [exact Hrc|exact Hmu|ring]. }
  apply (gc_fun g r i); [|exact Hx]. rewrite Ei, <- Z.add_assoc. exact G.
Qed.

(** steps 2 to 4 *)
Lemma steps_2_4_ok r : 0 <= r < nranks g ->
  exists c o sb2 s, steps_2_4 mul muldag dagmul g ord surf_sched conf out sb r = Some (c, o, sb2) /\ find_bulk_sites g (rank_labels g r) = Some s /\
    (forall i k, ~ (locVol g + bordVolh g <= i < locVol g + bordVol g) -> c i k = conf r i k) /\ (forall i, here g i -> cgood g U r c i) /\
    (forall A mu inu, In A (loclxOfNonFwSurflx s) -> (mu < 4)%nat -> (inu < 3)%nat -> good g mul muldag dagmul U r A mu (3 + inu) o) /\
    (forall D A mu inu, In D (loclxOfFwSurflx s) -> (mu < 4)%nat -> (inu < 3)%nat -> nb g r D (perpDirs mu inu) = Some A -> good g mul muldag dagmul U r A mu inu o) /\
    (forall mu nu b, (mu < 4)%nat -> (nu < 4)%nat -> nu <> mu -> bordOffset g nu <= b < bordOffset g nu + bordDirVol g nu ->
       sb2 (bordVolh g + b) mu = o (locVol g + (bordVolh g + b)) mu (inu_of nu mu)).
Proof.
  intros Hr. destruct (bulk_main g (coordOfRank g r) Hv (rc_ok g Hv r Hr)) as (s & Es & _). change (label_all_sites g (coordOfRank g r)) with (rank_labels g r) in *.
  destruct (exchange_ok g Hv 0 (steps_1 g ord surf_sched conf sb) r ltac:(auto) Hr) as (rb & Erb & _).
  destruct (conf3_ok r rb Hr Erb) as [C1 C2].
  unfold steps_2_4. rewrite Es, Erb. cbv zeta. set (c := finish_lower_surface g ord r rb (conf r)) in *. set (o2 := non_fw_surf_fw _ _ _ _ _ _ _ _). set (o := fw_surf_bw _ _ _ _ _ _ _ _).
  exists c, o, (fill_bw_staples g ord r o (steps_1 g ord surf_sched conf sb r)), s. split; [reflexivity|]. split; [reflexivity|]. split; [exact C1|]. split; [exact C2|].
  assert (C0 : forall i, 0 <= i < locVol g -> cgood g U r (conf r) i) by (intros; now apply Hc).
  split; [|split].
  - intros A mu inu HA Hmu Hi. apply (step4_keep g Hv surf_sched Hsurf mul muldag dagmul ord Ho U r Hr s Es (conf r) c C0 C2). apply (step2_gets g Hv surf_sched Hsurf mul muldag dagmul ord Ho U r Hr s Es (conf r) c C0 C2); assumption.
  - intros D A mu inu HD Hmu Hi EA. apply (step4_gets g Hv surf_sched Hsurf mul muldag dagmul ord Ho U r Hr s Es (conf r) c C0 C2) with D; assumption.
  - intros mu nu b Hmu Hnu Hne Hb. pose proof (dir_par nu b Hb) as Hp. destruct (perp_inv nu mu Hnu Hmu ltac:(congruence)) as [Q1 Q2].
    unfold fill_bw_staples. apply loop2_gets with (P := fun s : @qfield T => s (bordVolh g + b) mu = o (locVol g + (bordVolh g + b)) mu (inu_of nu mu)) (a := nu) (b := inu_of mu nu);
      [|now apply in_dirs|now apply in_012|].
    + intros nu' imu t Hnu' Hi' Ht. apply in_dirs in Hnu'. destruct (isDirParallel g nu'); [|exact Ht]. apply (PAR_keep ord Ho); [|exact Ht].
      intros j t' Hj Ht'. unfold link_put. destruct (Z.eqb_spec (bordVolh g + b) j) as [E|E]; [|exact Ht']. destruct (Nat.eqb_spec mu (perpDirs nu' imu)) as [Em|Em]; [|exact Ht'].
      cbn [andb]. assert (nu = nu') as <- by (apply (dir_unique nu nu' b Hnu Hnu' Hb); lia). rewrite <- Em, <- E. reflexivity.
    + intros t. rewrite Hp, Q2. apply (PAR_gets ord Ho) with (i := bordVolh g + b); [|lia|].
      * intros j t' Hj Ht'. unfold link_put. destruct (Z.eqb_spec (bordVolh g + b) j) as [E|E]; [|exact Ht']. rewrite Nat.eqb_refl. cbn [andb]. now rewrite <- E.
      * intros t'. unfold link_put. now rewrite Z.eqb_refl, Nat.eqb_refl.
Qed.

Theorem staples_main r : 0 <= r < nranks g ->
  exists c o, compute_squared_staples_lx_conf mul muldag dagmul g ord surf_sched conf out sb r = Some (c, o) /\
    (forall i k, ~ (locVol g + bordVolh g <= i < locVol g + bordVol g) -> c i k = conf r i k) /\ (forall i, here g i -> cgood g U r c i) /\
    (forall A mu k, 0 <= A < locVol g -> (mu < 4)%nat -> (k < 6)%nat -> good g mul muldag dagmul U r A mu k o).
Proof.
  intros Hr. destruct (steps_2_4_ok r Hr) as (c & o4 & sb2 & s & E4 & Es & C1 & C2 & G1 & G2 & _).
  unfold compute_squared_staples_lx_conf. rewrite Es, E4.
  set (sbs := fun q => match steps_2_4 mul muldag dagmul g ord surf_sched conf out sb q with Some (_, _, sb) => sb | None => fun _ _ => None end).
  destruct (exchange_ok g Hv 1 sbs r ltac:(auto) Hr) as (rb & Erb & X). rewrite Erb. eexists c, _. split; [reflexivity|]. split; [exact C1|]. split; [exact C2|].
  assert (C0 : forall i, 0 <= i < locVol g -> cgood g U r (conf r) i) by (intros; now apply Hc).
  destruct (lists_ok g Hv surf_sched Hsurf U r Hr s Es (conf r) c C0 C2) as (_ & _ & _ & L4 & _).
  set (o5 := non_fw_surf_bw _ _ _ _ _ _ _ _). set (o6 := fw_surf_fw _ _ _ _ _ _ _ _).
  assert (K6 : forall B m h, good g mul muldag dagmul U r B m h o4 -> good g mul muldag dagmul U r B m h o6).
  { intros B m h H. apply (step6_keep g Hv surf_sched Hsurf mul muldag dagmul ord Ho U r Hr s Es (conf r) c C0 C2), (step5_keep g Hv surf_sched Hsurf mul muldag dagmul ord Ho U r Hr s Es (conf r) c C0 C2), H. }
  (* what is received *)
  assert (W : forall nu imu b, (nu < 4)%nat -> (imu < 3)%nat -> isDirParallel g nu = true -> bordOffset g nu <= b < bordOffset g nu + bordDirVol g nu ->
    exists t, surflxOfBordlx g surf_sched r b = Some t /\
      exists x, gc g r t x /\ rb b (perpDirs nu imu) = Some (val g mul muldag dagmul U x (perpDirs nu imu) (inu_of nu (perpDirs nu imu)))).
  { intros nu imu b Hnu Hi Hp Hb. destruct (perp_facts nu imu Hnu Hi) as (Hmu & Hne & _). set (mu := perpDirs nu imu) in *.
    destruct (lower_surface g Hv r Hr surf_sched nu b (Hsurf r Hr) Hnu Hp Hb) as (t & x & Et & Ht & Hx & _ & Hall). exists t. split; [exact Et|]. exists x. split; [exact Hx|].
    destruct (X nu b Hnu Hp Hb) as (q & Hq & Eq & F). specialize (F mu). replace (bordVolh g * (1 - 1) + b) with b in F by ring. rewrite F, Z.mul_1_r.
    unfold sbs. destruct (steps_2_4_ok q Hq) as (cq & oq & sbq & sq & Eq4 & Esq & _ & C2q & _ & G2q & G3q). rewrite Eq4.
    rewrite (G3q mu nu b Hmu Hnu ltac:(congruence) Hb).
    destruct (perp_inv mu nu Hmu Hnu ltac:(congruence)) as [Q1 Q2].
    destruct (upper_border g Hv surf_sched Hsurf q Hq nu b Hnu Hb) as (D & HD & ED).
    assert (C0q : forall i, 0 <= i < locVol g -> cgood g U q (conf q) i) by (intros; now apply Hc).
    destruct (lists_ok g Hv surf_sched Hsurf U q Hq sq Esq (conf q) cq C0q C2q) as (_ & _ & _ & _ & L5).
    pose proof (bord_range g Hv nu Hnu) as [R1 R2].
    destruct (G2q D (locVol g + (bordVolh g + b)) mu (inu_of nu mu)) as (z & Hz & ->); [apply (L5 D nu _ HD Hnu ED); lia|exact Hmu|exact Q1|now rewrite Q2|].
    f_equal. f_equal. apply (gc_fun g q (locVol g + (bordVolh g + b))); [exact Hz|]. apply Hall; [exact Hq|]. rewrite Eq. reflexivity. }
  assert (K7 : forall B m h, good g mul muldag dagmul U r B m h o6 -> good g mul muldag dagmul U r B m h (finish_bw_staples g ord surf_sched r rb o6)).
  { intros B m h H. unfold finish_bw_staples. apply loop2_keep; [|exact H]. intros nu imu t Hnu Hi Ht. apply in_dirs in Hnu. apply in_012 in Hi.
    destruct (isDirParallel g nu) eqn:Hp; [|exact Ht]. apply (PAR_keep ord Ho); [|exact Ht]. intros b t' Hb Ht'.
    destruct (W nu imu b Hnu Hi Hp Hb) as (t2 & -> & Hx). apply put_good; assumption. }
  intros A mu k HA Hmu Hk. destruct (Nat.lt_ge_cases k 3) as [H3|H3].
  - destruct (perp_facts mu k Hmu H3) as (Hnu & Hne & Ek). set (nu := perpDirs mu k) in *.
    destruct (down_nb g Hv surf_sched Hsurf r Hr A nu HA Hnu) as [(D & HD & ED)|(Hp & b & Hb & Eb)].
    + apply K7. destruct (L4 D HD) as [HI|HI].
      * apply (step6_keep g Hv surf_sched Hsurf mul muldag dagmul ord Ho U r Hr s Es (conf r) c C0 C2), (step5_gets g Hv surf_sched Hsurf mul muldag dagmul ord Ho U r Hr s Es (conf r) c C0 C2) with D; assumption.
      * apply K6, (G2 D); assumption.
    + destruct (perp_inv nu mu Hnu Hmu ltac:(congruence)) as [Q1 Q2].
      unfold finish_bw_staples. apply loop2_gets with nu (inu_of mu nu); [|now apply in_dirs|now apply in_012|].
      * intros nu' imu t Hnu' Hi Ht. apply in_dirs in Hnu'. apply in_012 in Hi.
        destruct (isDirParallel g nu') eqn:Hp'; [|exact Ht]. apply (PAR_keep ord Ho); [|exact Ht]. intros b' t' Hb' Ht'.
        destruct (W nu' imu b' Hnu' Hi Hp' Hb') as (t2 & -> & Hx). apply put_good; assumption.
      * intros t. rewrite Hp, Q2. apply (PAR_gets ord Ho) with (i := b); [|exact Hb|].
        -- intros b' t' Hb' Ht'. destruct (W nu (inu_of mu nu) b' Hnu Q1 Hp Hb') as (t2 & -> & Hx). rewrite Q2 in Hx. apply put_good; assumption.
        -- intros t'. destruct (W nu (inu_of mu nu) b Hnu Q1 Hp Hb) as (t2 & E2 & Hx). rewrite Eb in E2 |- *. injection E2 as <-. rewrite Q2 in Hx. rewrite Ek in Hx |- *. apply put_gets; assumption.
  - apply K7. replace k with (3 + (k - 3))%nat by lia. destruct (L4 A HA) as [HI|HI].
    + apply K6, G1; [exact HI|exact Hmu|lia].
    + apply (step6_gets g Hv surf_sched Hsurf mul muldag dagmul ord Ho U r Hr s Es (conf r) c C0 C2); [exact HI|exact Hmu|lia].
Qed.
End Conf.
End G.
