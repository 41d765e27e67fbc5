(** findMinimalSurfaceGrid returns a valid grid of minimal surface. *)
From Verif Require Import Base GeometryModel GeometryProofs OwnerProofs FullLxProofs LabelProofs GridModel GridProofs GridSpec.
From Coq Require Import Znumtheory Sorted.

Lemma bulk_spec : forall L, bulk_volume L = prodZ (map (fun l => Z.max 0 (l - 2)) L).
Proof.
  intros L. unfold bulk_volume. 
  enough (H : forall v, v <> 0 -> bulk_volume_loop v L = v * prodZ (map (fun l => Z.max 0 (l - 2)) L)).
  { rewrite H by lia. ring. }
  induction L as [|l L IH]; intros v Hv; cbn [bulk_volume_loop map]; [unfold prodZ; cbn; ring|].
  rewrite prodZ_cons. destruct (Z.ltb_spec 2 l) as [Hl|Hl].
  - destruct (Z.eqb_spec (v * (l - 2)) 0) as [E|E]; [nia|]. rewrite IH by assumption. rewrite Z.max_r by lia. ring.
  - cbn [Z.eqb]. rewrite Z.max_l by lia. ring.
Qed.

Lemma quot_div_pos a b : 0 < b -> 0 <= a -> Z.quot a b = a / b.
Proof. intros. apply Z.quot_div_nonneg; lia. Qed.

Section M.
Context (ovf : Z -> Z) (L fixn : list Z) (use_eo : bool) (NR : Z).
Hypothesis HL : length L = 4%nat.
Hypothesis HLp : forall mu, (mu < 4)%nat -> 0 < L.[mu].
Hypothesis Hfix : length fixn = 4%nat /\ forall mu, (mu < 4)%nat -> 0 <= fixn.[mu].
Let V := prodZ L.
Hypothesis HV : V <= int_max.
Hypothesis HNR : 1 < NR < V.

Lemma map2_quot4 R : length R = 4%nat -> (forall mu, (mu < 4)%nat -> 0 < R.[mu]) -> map2 Z.quot L R = map2 Z.div L R.
Proof.
  intros HR Hp. destruct (length4 L HL) as (a&b&c&d&E). destruct (length4 R HR) as (a'&b'&c'&d'&E').
  pose proof (HLp 0%nat ltac:(lia)). pose proof (HLp 1%nat ltac:(lia)). pose proof (HLp 2%nat ltac:(lia)). pose proof (HLp 3%nat ltac:(lia)).
  pose proof (Hp 0%nat ltac:(lia)). pose proof (Hp 1%nat ltac:(lia)). pose proof (Hp 2%nat ltac:(lia)). pose proof (Hp 3%nat ltac:(lia)).
  rewrite E, E' in *. cbn [nth] in *. cbn [map2]. rewrite !quot_div_pos by lia. reflexivity.
Qed.

(** dividing a box side by side *)
Lemma div_box R : dvL L R -> let l := map2 Z.div L R in dvL L l /\ prodZ l * prodZ R = V /\ map2 Z.div L l = R.
Proof.
  intros [HR Hd]. cbv zeta. unfold V. destruct (length4 L HL) as (a&b&c&d&E). destruct (length4 R HR) as (a'&b'&c'&d'&E').
  pose proof (HLp 0%nat ltac:(lia)). pose proof (HLp 1%nat ltac:(lia)). pose proof (HLp 2%nat ltac:(lia)). pose proof (HLp 3%nat ltac:(lia)).
  destruct (Hd 0%nat ltac:(lia)) as [? [k0 E0]]. destruct (Hd 1%nat ltac:(lia)) as [? [k1 E1]].
  destruct (Hd 2%nat ltac:(lia)) as [? [k2 E2]]. destruct (Hd 3%nat ltac:(lia)) as [? [k3 E3]].
  rewrite E, E' in *. cbn [nth] in *. subst a b c d.
  assert (0 < k0 /\ 0 < k1 /\ 0 < k2 /\ 0 < k3) by (clear -H H0 H1 H2 H3 H4 H5 H6; repeat split; nia).
  cbn [map2]. rewrite !Z.div_mul by lia. split; [|split].
  - split; [reflexivity|]. intros mu Hmu. destruct mu as [|[|[|[|]]]]; cbn [nth]; try lia; (split; [lia|apply Z.divide_factor_l]).
  - unfold prodZ. cbn [fold_right]. ring.
  - rewrite !(Z.mul_comm _ a'), !(Z.mul_comm _ b'), !(Z.mul_comm _ c'), !(Z.mul_comm _ d'). rewrite !Z.div_mul by lia. reflexivity.
Qed.

Lemma surface_bound R : dvL L R -> 0 <= surface L R /\ surface L R = prodZ (map2 Z.div L R) - bulk_recip_lat_volume R L.
Proof.
  intros HR. destruct (div_box R HR) as ([Hl Hd] & _ & _). 
  assert (E : bulk_recip_lat_volume R L = prodZ (map2 (fun l r => Z.max 0 (l / r - 2)) L R)).
  { unfold bulk_recip_lat_volume. rewrite map2_quot4; [|apply HR|intros; now apply HR]. rewrite bulk_spec.
    destruct HR as [HRl _]. destruct (length4 L HL) as (a&b&c&d&->). destruct (length4 R HRl) as (a'&b'&c'&d'&->). reflexivity. }
  unfold surface. rewrite E. split; [|reflexivity].
  destruct HR as [HRl _]. destruct (length4 L HL) as (a&b&c&d&EL). destruct (length4 R HRl) as (a'&b'&c'&d'&ER).
  rewrite EL, ER in *. cbn [map2] in *.
  pose proof (proj1 (Hd 0%nat ltac:(lia))) as D0. pose proof (proj1 (Hd 1%nat ltac:(lia))) as D1.
  pose proof (proj1 (Hd 2%nat ltac:(lia))) as D2. pose proof (proj1 (Hd 3%nat ltac:(lia))) as D3. cbn [nth] in *.
  unfold prodZ. cbn [fold_right]. revert D0 D1 D2 D3. generalize (a / a') (b / b') (c / c') (d / d'). clear. intros x y z w X Y Z W.
  assert (K : forall t, 0 < t -> 0 <= Z.max 0 (t - 2) <= t) by (intros; lia).
  pose proof (K x X) as Kx. pose proof (K y Y) as Ky. pose proof (K z Z) as Kz. pose proof (K w W) as Kw.
  revert Kx Ky Kz Kw. generalize (Z.max 0 (x - 2)) (Z.max 0 (y - 2)) (Z.max 0 (z - 2)) (Z.max 0 (w - 2)). intros x' y' z' w' Kx Ky Kz Kw.
  assert (0 <= z' * w' <= z * w) by (clear -Kz Kw Z W; nia).
  assert (0 <= y' * (z' * w') <= y * (z * w)) by (split; [apply Z.mul_nonneg_nonneg; lia|apply Z.mul_le_mono_nonneg; lia]).
  assert (0 <= x' * (y' * (z' * w')) <= x * (y * (z * w))) by (split; [apply Z.mul_nonneg_nonneg; lia|apply Z.mul_le_mono_nonneg; lia]).
  rewrite !Z.mul_1_r. lia.
Qed.

Context (fact : list Z) (fr : bool) (Hpr : Forall prime fact) (HNRV : (NR | V)).
Hypothesis Hprod : prodZ fact = if fr then NR else V / NR.
Let LV := V / NR.

Lemma accepted_iff R : (forall mu, (mu < 4)%nat -> 0 < R.[mu]) ->
  grid_accepted L R fixn use_eo = true <->
  (use_eo = true -> forall mu, (mu < 4)%nat -> (2 | L.[mu] / R.[mu])) /\
  (forall mu, (mu < 4)%nat -> fixn.[mu] <> 0 -> R.[mu] = fixn.[mu]).
Proof.
  intros Hp. unfold grid_accepted. rewrite forallb_forall. split.
  - intros H. split.
    + intros -> mu Hmu. specialize (H mu). assert (In mu dirs) as Hin by (unfold dirs; cbn; lia). specialize (H Hin).
      apply andb_prop in H as [H _]. cbn [negb orb] in H. apply Z.eqb_eq in H. rewrite quot_div_pos in H.
      * apply Z.rem_divide in H; [exact H|lia].
      * now apply Hp.
      * specialize (HLp mu Hmu). lia.
    + intros mu Hmu Hf. specialize (H mu). assert (In mu dirs) as Hin by (unfold dirs; cbn; lia). specialize (H Hin).
      apply andb_prop in H as [_ H]. lia.
  - intros [H1 H2] mu Hin. assert (Hmu : (mu < 4)%nat) by (unfold dirs in Hin; cbn in Hin; lia).
    apply andb_true_intro. split.
    + destruct use_eo; [|reflexivity]. cbn [negb orb]. apply Z.eqb_eq. rewrite quot_div_pos.
      * apply Z.rem_divide; [lia|]. now apply H1.
      * now apply Hp.
      * specialize (HLp mu Hmu). lia.
    + specialize (H2 mu Hmu). destruct (Z.eqb_spec fixn.[mu] 0); [reflexivity|]. cbn [orb]. apply Z.eqb_eq. symmetry. now apply H2.
Qed.

Lemma to_ranks_spec R0 : dvL L R0 -> prodZ R0 = prodZ fact -> let R := to_ranks L R0 fr in dvL L R /\ prodZ R = NR.
Proof.
  intros HR E R. unfold R, to_ranks. destruct fr.
  - split; [exact HR|]. congruence.
  - rewrite map2_quot4; [|apply HR|intros; now apply HR]. destruct (div_box R0 HR) as (A & B & C). split; [exact A|].
    rewrite E, Hprod in B. destruct HNRV as [k Ek]. rewrite Ek in B. rewrite Z.div_mul in B by lia. assert (0 < k) by nia. nia.
Qed.

Lemma ones_dvL : dvL L ones.
Proof. split; [reflexivity|]. intros mu Hmu. unfold ones. destruct mu as [|[|[|[|]]]]; cbn [nth]; try lia; (split; [lia|apply Z.divide_1_l]). Qed.

Lemma primes_pos : Forall (fun p => 0 < p) fact.
Proof. eapply Forall_impl; [|exact Hpr]. intros p [Hp _]. cbv beta. lia. Qed.

Lemma grid_of_valid c R : grid_of L fact fixn use_eo fr c = Some R -> valid_split L fixn use_eo NR R.
Proof.
  unfold grid_of. destruct (asg _ _ _ _ _) as [R0|] eqn:E; [|discriminate]. cbv zeta.
  destruct (grid_accepted _ _ _ _) eqn:Eg; [|discriminate]. intros [= <-].
  destruct (asg_sound L fact primes_pos c (length fact) ones R0 (le_n _) ones_dvL E) as [HR0 P0].
  rewrite firstn_all in P0. replace (prodZ ones * prodZ fact) with (prodZ fact) in P0 by (unfold ones, prodZ at 2; cbn [fold_right]; ring).
  destruct (to_ranks_spec R0 HR0 P0) as [HR HP].
  apply accepted_iff in Eg; [|intros mu Hmu; now apply HR]. destruct HR as [A B]. split; [exact A|]. split; [exact B|]. split; [exact HP|exact Eg].
Qed.

Lemma valid_grid_of R : valid_split L fixn use_eo NR R -> exists c, 0 <= c < 4 ^ Z.of_nat (length fact) /\ grid_of L fact fixn use_eo fr c = Some R.
Proof.
  intros (Hl & Hd & Hp & Hev). assert (HR : dvL L R) by (split; assumption).
  destruct (div_box R HR) as (A & B & C).
  pose (R0 := if fr then R else map2 Z.div L R).
  assert (HR0 : dvL L R0) by (unfold R0; destruct fr; assumption).
  assert (HP0 : prodZ R0 = prodZ fact).
  { unfold R0. rewrite Hprod. destruct fr; [exact Hp|]. rewrite <- B, Hp, Z.div_mul by lia. reflexivity. }
  destruct (asg_complete L fact Hpr HLp R0 (length fact) ones R0) as (c & Hc & Ec); auto; try lia.
  - apply ones_dvL.
  - apply HR0.
  - intros mu Hmu. unfold ones. destruct mu as [|[|[|[|]]]]; cbn [nth]; try lia; ring.
  - rewrite firstn_all. exact HP0.
  - exists c. split; [exact Hc|]. unfold grid_of. rewrite Ec. cbv zeta.
    assert (Et : to_ranks L R0 fr = R).
    { unfold to_ranks, R0. destruct fr; [reflexivity|]. rewrite map2_quot4; [exact C|apply A|intros; now apply A]. }
    rewrite Et. replace (grid_accepted L R fixn use_eo) with true; [reflexivity|]. symmetry. apply accepted_iff; [|exact Hev].
    intros mu Hmu. now apply Hd.
Qed.

Lemma surf_surface R : valid_split L fixn use_eo NR R -> surf L LV R = surface L R /\ 0 <= surface L R.
Proof.
  intros (Hl & Hd & Hp & _). assert (HR : dvL L R) by (split; assumption). destruct (surface_bound R HR) as [H0 ->]. split; [|rewrite <- (proj2 (surface_bound R HR)); exact H0].
  unfold surf. f_equal. destruct (div_box R HR) as (_ & B & _). unfold LV. rewrite <- B, Hp, Z.div_mul by lia. reflexivity.
Qed.

Lemma search_main : (length fact <= 15)%nat ->
  exists s, search_loop ovf (Z.to_nat (4 ^ Z.of_nat (length fact))) L fact fixn use_eo fr LV (4 ^ Z.of_nat (length fact)) 0 (mkSearch [-1;-1;-1;-1] (-1) (-1)) = Some s /\
   ((mR s = [-1;-1;-1;-1] /\ forall R, ~ valid_split L fixn use_eo NR R) \/
    (valid_split L fixn use_eo NR (mR s) /\ forall R, valid_split L fixn use_eo NR R ->
      surface L (mR s) < surface L R \/ (surface L (mR s) = surface L R /\
       compute_border_variance ovf L (mR s) fr <= compute_border_variance ovf L R fr))).
Proof.
  intros Hlen. pose proof (pow4_pos (length fact)) as Pn.
  destruct (search_best ovf L fact fixn use_eo fr LV) with (fuel := Z.to_nat (4 ^ Z.of_nat (length fact))) (c := 0) (s := mkSearch [-1;-1;-1;-1] (-1) (-1)) as (s & E & HB).
  - intros c R HR. apply grid_of_valid in HR. apply surf_surface in HR. lia.
  - lia.
  - lia.
  - intros f _. exists 0. ring.
  - left. split; [reflexivity|]. split; [reflexivity|]. intros; lia.
  - exists s. split; [exact E|]. destruct HB as [(H1 & H2 & H3)|(c0 & H1 & H2 & H3 & H4 & H5)].
    + left. split; [exact H2|]. intros R HR. destruct (valid_grid_of R HR) as (c & Hc & Ec). rewrite H3 in Ec by assumption. discriminate.
    + right. pose proof (grid_of_valid _ _ H2) as Hval. split; [exact Hval|]. intros R HR.
      destruct (valid_grid_of R HR) as (c & Hc & Ec). specialize (H5 c R Hc Ec). unfold better in H5.
      destruct (surf_surface R HR) as [E1 _]. destruct (surf_surface _ Hval) as [E2 _]. rewrite H3, H4 in H5. unfold var in H5. lia.
Qed.
End M.

Theorem grid_main : forall ovf L fixn use_eo NR,
  length L = 4%nat -> (forall mu, (mu < 4)%nat -> 0 < L.[mu]) ->
  length fixn = 4%nat -> (forall mu, (mu < 4)%nat -> 0 <= fixn.[mu]) ->
  prodZ L <= int_max -> 1 < NR < prodZ L ->
  match findMinimalSurfaceGrid ovf L fixn use_eo NR with
  | Undefined => False
  | Crash => forall R, ~ valid_split L fixn use_eo NR R
  | Grid R => (R = [-1;-1;-1;-1] /\ forall R', ~ valid_split L fixn use_eo NR R') \/
              (valid_split L fixn use_eo NR R /\
               forall R', valid_split L fixn use_eo NR R' -> surface L R <= surface L R')
  end.
Proof.
  intros ovf L fixn use_eo NR HL HLp Hfl Hfp HV HNR.
  assert (EV : volOfLx L = prodZ L). { apply volOfLx_prodZ. }
  unfold findMinimalSurfaceGrid. rewrite EV. set (V := prodZ L) in *.
  replace (in_int V) with true by (unfold in_int, int_min; lia). cbn [negb].
  rewrite quot_div_pos by lia.
  assert (Hfact : forall R, valid_split L fixn use_eo NR R ->
     exists r0 r1 r2 r3 l0 l1 l2 l3, R = [r0;r1;r2;r3] /\ L = [r0*l0;r1*l1;r2*l2;r3*l3] /\ NR = r0*r1*r2*r3 /\
       0 < r0 /\ 0 < r1 /\ 0 < r2 /\ 0 < r3 /\ 0 < l0 /\ 0 < l1 /\ 0 < l2 /\ 0 < l3 /\
       V = NR * (l0*l1*l2*l3) /\ (use_eo = true -> (2|l0) /\ (2|l1) /\ (2|l2) /\ (2|l3)) /\
       (fixn.[0] <> 0 -> r0 = fixn.[0]) /\ (fixn.[1] <> 0 -> r1 = fixn.[1]) /\ (fixn.[2] <> 0 -> r2 = fixn.[2]) /\ (fixn.[3] <> 0 -> r3 = fixn.[3])).
  { intros R (Hl & Hd & Hp & He & Hx). destruct (length4 R Hl) as (r0&r1&r2&r3&->). destruct (length4 L HL) as (a&b&c&d&EL).
    destruct (Hd 0%nat ltac:(lia)) as [P0 [l0 E0]]. destruct (Hd 1%nat ltac:(lia)) as [P1 [l1 E1]].
    destruct (Hd 2%nat ltac:(lia)) as [P2 [l2 E2]]. destruct (Hd 3%nat ltac:(lia)) as [P3 [l3 E3]].
    pose proof (HLp 0%nat ltac:(lia)) as Q0. pose proof (HLp 1%nat ltac:(lia)) as Q1. pose proof (HLp 2%nat ltac:(lia)) as Q2. pose proof (HLp 3%nat ltac:(lia)) as Q3.
    exists r0, r1, r2, r3, l0, l1, l2, l3. rewrite EL in *. cbn [nth] in *. subst a b c d.
    assert (0 < l0 /\ 0 < l1 /\ 0 < l2 /\ 0 < l3) as (?&?&?&?) by (clear -P0 P1 P2 P3 Q0 Q1 Q2 Q3; repeat split; nia).
    split; [reflexivity|]. split; [now rewrite !(Z.mul_comm l0), !(Z.mul_comm l1), !(Z.mul_comm l2), !(Z.mul_comm l3)|].
    unfold prodZ in Hp. cbn [fold_right] in Hp. split; [rewrite <- Hp; ring|].
    do 8 (split; [assumption|]). split; [rewrite <- Hp; unfold V, prodZ; rewrite EL; cbn [fold_right]; ring|].
    split.
    - intros Heo. pose proof (He Heo 0%nat ltac:(lia)) as D0. pose proof (He Heo 1%nat ltac:(lia)) as D1.
      pose proof (He Heo 2%nat ltac:(lia)) as D2. pose proof (He Heo 3%nat ltac:(lia)) as D3. cbn [nth] in *.
      rewrite Z.div_mul in D0, D1, D2, D3 by lia. auto.
    - pose proof (Hx 0%nat ltac:(lia)) as X0. pose proof (Hx 1%nat ltac:(lia)) as X1. pose proof (Hx 2%nat ltac:(lia)) as X2. pose proof (Hx 3%nat ltac:(lia)) as X3.
      cbn [nth] in *. auto. }
  destruct (use_eo && negb (Z.rem (V / NR) 16 =? 0)) eqn:C1.
  { intros R HR. destruct (Hfact R HR) as (r0&r1&r2&r3&l0&l1&l2&l3&_&_&_&_&_&_&_&_&_&_&_&HVe&Heo&_).
    apply andb_prop in C1 as [C1 C2]. destruct (Heo C1) as ([a ->]&[b ->]&[c ->]&[d ->]).
    rewrite HVe in C2. rewrite (Z.mul_comm NR), Z.div_mul in C2 by lia.
    replace (a * 2 * (b * 2) * (c * 2) * (d * 2)) with (a * b * c * d * 16) in C2 by ring.
    rewrite Z.rem_mul in C2 by lia. discriminate. }
  destruct (negb (Z.rem V NR =? 0)) eqn:C2.
  { intros R HR. destruct (Hfact R HR) as (r0&r1&r2&r3&l0&l1&l2&l3&_&_&_&_&_&_&_&_&_&_&_&HVe&Heo&_).
    rewrite HVe in C2. rewrite (Z.mul_comm NR), Z.rem_mul in C2 by lia. discriminate. }
  assert (HNRV : (NR | V)). { apply Z.rem_divide; [lia|]. destruct (Z.eqb_spec (Z.rem V NR) 0); [assumption|discriminate]. }
  destruct (negb (fix_possible L fixn use_eo)) eqn:C3.
  { intros R HR. destruct (Hfact R HR) as (r0&r1&r2&r3&l0&l1&l2&l3&ER&EL&_&P0&P1&P2&P3&Q0&Q1&Q2&Q3&_&He&F0&F1&F2&F3).
    assert (fix_possible L fixn use_eo = true); [|rewrite H in C3; discriminate].
    unfold fix_possible, dirs. cbn [forallb]. rewrite EL. cbn [nth].
    assert (K : forall f r l, (f <> 0 -> r = f) -> 0 < r -> 0 < l -> (use_eo = true -> (2 | l)) ->
       ((f =? 0) || ((Z.rem (r * l) f =? 0) && negb (r * l <? (if use_eo then 2 else 1)))) = true).
    { clear. intros f r l H1 Hr Hl H2. destruct (Z.eqb_spec f 0); [reflexivity|]. cbn [orb]. rewrite <- (H1 n).
      rewrite Z.mul_comm, Z.rem_mul by lia. cbn [Z.eqb andb]. destruct use_eo.
      - destruct (H2 eq_refl) as [k ->]. apply negb_true_iff. apply Z.ltb_ge. nia.
      - apply negb_true_iff. apply Z.ltb_ge. nia. }
    rewrite !K; auto; intros; now apply He. }
  destruct (residual_ranks NR fixn <? 1) eqn:C4.
  { intros R HR. destruct (Hfact R HR) as (r0&r1&r2&r3&l0&l1&l2&l3&ER&EL&EN&P0&P1&P2&P3&_&_&_&_&_&_&F0&F1&F2&F3).
    apply Z.ltb_lt in C4. unfold residual_ranks, dirs in C4. cbn [fold_left] in C4.
    assert (K : forall f r x, (f <> 0 -> r = f) -> 0 < r -> 0 < x -> exists y, 0 < y /\ (if f =? 0 then r * x else Z.quot (r * x) f) = y * x).
    { clear. intros f r x H Hr Hx. destruct (Z.eqb_spec f 0) as [E|E].
      - exists r. split; [lia|reflexivity].
      - exists 1. split; [lia|]. rewrite <- (H E). rewrite Z.mul_comm, Z.quot_mul by lia. ring. }
    rewrite EN in C4.
    destruct (K fixn.[0] r0 (r1 * r2 * r3) F0 P0 ltac:(clear -P1 P2 P3; apply Z.mul_pos_pos; [apply Z.mul_pos_pos|]; lia)) as (y0 & Y0 & E0).
    replace (r0 * r1 * r2 * r3) with (r0 * (r1 * r2 * r3)) in C4 by ring. rewrite E0 in C4.
    destruct (K fixn.[1] r1 (y0 * r2 * r3) F1 P1 ltac:(clear -Y0 P2 P3; apply Z.mul_pos_pos; [apply Z.mul_pos_pos|]; lia)) as (y1 & Y1 & E1).
    replace (y0 * (r1 * r2 * r3)) with (r1 * (y0 * r2 * r3)) in C4 by ring. rewrite E1 in C4.
    destruct (K fixn.[2] r2 (y1 * y0 * r3) F2 P2 ltac:(clear -Y0 Y1 P3; apply Z.mul_pos_pos; [apply Z.mul_pos_pos|]; lia)) as (y2 & Y2 & E2).
    replace (y1 * (y0 * r2 * r3)) with (r2 * (y1 * y0 * r3)) in C4 by ring. rewrite E2 in C4.
    destruct (K fixn.[3] r3 (y2 * y1 * y0) F3 P3 ltac:(clear -Y0 Y1 Y2; apply Z.mul_pos_pos; [apply Z.mul_pos_pos|]; lia)) as (y3 & Y3 & E3).
    replace (y2 * (y1 * y0 * r3)) with (r3 * (y2 * y1 * y0)) in C4 by ring. rewrite E3 in C4.
    assert (0 < y3 * (y2 * y1 * y0)); [|lia]. apply Z.mul_pos_pos; [assumption|]. apply Z.mul_pos_pos; [|assumption]. now apply Z.mul_pos_pos. }
  replace (NR =? 1) with false by lia. replace (NR =? V) with false by lia.
  destruct HNRV as [k Ek].
  assert (EK : V / NR = k) by (rewrite Ek, Z.div_mul by lia; reflexivity). assert (Hk : 1 < k) by nia.
  destruct (factorize_main (V / NR) ltac:(lia)) as (fLV & E1 & PL1 & _ & PL2).
  destruct (factorize_main NR ltac:(lia)) as (fNR & E2 & PN1 & _ & PN2).
  rewrite E1, E2.
  assert (Hlen : (Nat.min (length fLV) (length fNR) <= 15)%nat).
  { pose proof (prime_len fLV PL1) as A1. pose proof (prime_len fNR PN1) as A2. rewrite PL2, EK in A1. rewrite PN2 in A2.
    destruct (le_lt_dec (Nat.min (length fLV) (length fNR)) 15) as [|Hgt]; [assumption|exfalso].
    assert (2 ^ 16 <= 2 ^ Z.of_nat (length fLV)) by (apply Z.pow_le_mono_r; lia).
    assert (2 ^ 16 <= 2 ^ Z.of_nat (length fNR)) by (apply Z.pow_le_mono_r; lia).
    change (2 ^ 16) with 65536 in *. unfold int_max in HV. nia. }
  set (fr := (length fNR <=? length fLV)%nat). set (fact := if fr then fNR else fLV).
  assert (Hl15 : (length fact <= 15)%nat).
  { unfold fact, fr. destruct (Nat.leb_spec (length fNR) (length fLV)); lia. }
  replace (in_int (4 ^ Z.of_nat (length fact))) with true.
  2:{ symmetry. unfold in_int, int_min, int_max. pose proof (pow4_pos (length fact)).
      assert (4 ^ Z.of_nat (length fact) <= 4 ^ 15) by (apply Z.pow_le_mono_r; lia). change (4 ^ 15) with 1073741824 in *. lia. }
  cbn [negb].
  destruct (search_main ovf L fixn use_eo NR HL HLp (conj Hfl Hfp) HV HNR fact fr) as (s & Es & Hs).
  - unfold fact. destruct fr; assumption.
  - exists k. exact Ek.
  - unfold fact, fr. destruct (_ <=? _)%nat; assumption.
  - exact Hl15.
  - fold V in Es. rewrite Es. destruct Hs as [Hs|[Hs1 Hs2]]; [left; exact Hs|right]. split; [exact Hs1|].
    intros R' HR'. specialize (Hs2 R' HR'). lia.
Qed.
