(** C96: the free propagator of the gauge field is the inverse of the kinetic operator of the action of plaquettes and rectangles. *)
From Coq Require Import Reals Lra Lia List ZArith FunctionalExtensionality.
From Coquelicot Require Import Complex.
From Verif Require Import CplxModel CplxSpec CplxProofs MatModel MatSpec DiracModel DiracSpec DiracProofs SpinModel SpinSpec FreeTmModel FreeTmSpec FreeTmProofs GluonModel GluonSpec GluonProofs GluonStore.
Import ListNotations.
Open Scope R_scope.
Set Bullet Behavior "Strict Subproofs".

(** the momenta at which the propagator is not regularised: the tolerance of the program *)
Definition regular (gl : gauge_info) (k : nat -> R) : Prop :=
  match which_gauge gl with COULOMB => / 10 ^ 14 < khat2_space k | _ => / 10 ^ 14 <= khat2 k end.
(** the propagator of the gauge, times the volume *)
Definition Gv (gl : gauge_info) (h : nat -> R) : nat -> nat -> R := match which_gauge gl with FEYNMAN => Pc (c1 gl) 1 h | LANDAU => Pc (c1 gl) 0 h | COULOMB => Pk h end.
Definition wv (gl : gauge_info) (h : nat -> R) (mu : nat) : R := match which_gauge gl with COULOMB => sp mu * h mu / hs h | _ => h mu / s2 h end.
Lemma tol_pos : 0 < / 10 ^ 14. Proof. apply Rinv_0_lt_compat. lra. Qed.
Lemma hs_s2 h : hs h <= s2 h.
Proof. unfold hs, s2, rsum. cbn [seq fold_right]. pose proof (Rle_0_sqr (h 0%nat)). unfold Rsqr in *. lra. Qed.
Lemma s2_nn h : 0 <= s2 h.
Proof. unfold s2, rsum. cbn [seq fold_right]. assert (G : forall r, 0 <= h r * h r) by (intros; apply Rle_0_sqr). pose proof (G 0%nat). pose proof (G 1%nat). pose proof (G 2%nat). pose proof (G 3%nat). lra. Qed.
Lemma hs_nn h : 0 <= hs h.
Proof. unfold hs. assert (G : forall r, 0 <= h r * h r) by (intros; apply Rle_0_sqr). pose proof (G 1%nat). pose proof (G 2%nat). pose proof (G 3%nat). lra. Qed.
Lemma regular_pos gl k : regular gl k -> 0 < s2 (khat k) /\ (which_gauge gl = COULOMB -> 0 < hs (khat k)).
Proof.
  pose proof tol_pos as T. unfold regular. change (khat2 k) with (s2 (khat k)). change (khat2_space k) with (hs (khat k)). pose proof (hs_s2 (khat k)). destruct (which_gauge gl); intros H'; split; intros; try discriminate; lra.
Qed.
Lemma Pval_good L V gl x : V <> 0%Z -> kept (zms gl) x -> let k := mom L (gbc gl) x in regular gl k -> forall mu nu, Pval L V gl x mu nu = Gv gl (khat k) mu nu / IZR V.
Proof.
  intros HV K k R mu nu. destruct (regular_pos gl k R) as [P P']. unfold Pval, Gv. apply nonzero_kept in K. rewrite K. fold k. unfold regular in R. change (khat2 k) with (s2 (khat k)) in R. change (khat2_space k) with (hs (khat k)) in R. fold tol14 in R.
  destruct (which_gauge gl).
  - assert (B : below (Rabs (s2 (khat k))) tol14 = false) by (unfold below; destruct (Rlt_dec _ _); [exfalso; rewrite Rabs_Rabsolu, Rabs_pos_eq in r by lra; lra|reflexivity]).
    rewrite B. unfold Pc. apply not_0_IZR in HV. field. split; lra.
  - assert (B : below (Rabs (s2 (khat k))) tol14 = false) by (unfold below; destruct (Rlt_dec _ _); [exfalso; rewrite Rabs_Rabsolu, Rabs_pos_eq in r by lra; lra|reflexivity]).
    rewrite B. unfold Pc. apply not_0_IZR in HV. field. split; lra.
  - assert (B : above (Rabs (hs (khat k))) tol14 = true) by (unfold above; destruct (Rlt_dec _ _); [reflexivity|exfalso; rewrite Rabs_pos_eq in n by (specialize (P' eq_refl); lra); lra]).
    rewrite B. reflexivity.
Qed.
Lemma Pval_zero L V gl x : (~ kept (zms gl) x \/ ~ regular gl (mom L (gbc gl) x)) -> forall mu nu, Pval L V gl x mu nu = 0.
Proof.
  intros H mu nu. unfold Pval. destruct (isNonZeroMode gl x) eqn:Z; [|reflexivity]. destruct H as [H|H]; [apply nonzero_kept in Z; contradiction|].
  set (k := mom L (gbc gl) x) in *. unfold regular in H. change (khat2 k) with (s2 (khat k)) in H. change (khat2_space k) with (hs (khat k)) in H. fold tol14 in H. pose proof (s2_nn (khat k)). pose proof (hs_nn (khat k)).
  destruct (which_gauge gl).
  - unfold below. destruct (Rlt_dec _ _); [reflexivity|exfalso; rewrite Rabs_Rabsolu, Rabs_pos_eq in n by lra; lra].
  - unfold below. destruct (Rlt_dec _ _); [reflexivity|exfalso; rewrite Rabs_Rabsolu, Rabs_pos_eq in n by lra; lra].
  - unfold above. destruct (Rlt_dec _ _); [exfalso; rewrite Rabs_pos_eq in r by lra; lra|reflexivity].
Qed.
Lemma Gv_sym gl h mu nu : (mu < 4)%nat -> (nu < 4)%nat -> Gv gl h mu nu = Gv gl h nu mu.
Proof. intros. unfold Gv. destruct (which_gauge gl); [now apply Pc_sym|now apply Pc_sym|now apply Pk_sym]. Qed.
Lemma K_Gv gl k : c1 gl <= 0 -> (which_gauge gl = COULOMB -> c1 gl = 0) -> regular gl k -> forall mu nu, (mu < 4)%nat -> (nu < 4)%nat ->
  rsum 4 (fun rho => K0 (c1 gl) (khat k) mu rho * Gv gl (khat k) rho nu) = dlt mu nu - wv gl (khat k) mu * khat k nu.
Proof.
  intros C CC R mu nu H1 H2. destruct (regular_pos gl k R) as [P P']. unfold Gv, wv. destruct (which_gauge gl).
  - rewrite K_Pc by assumption. field. lra.
  - rewrite K_Pc by assumption. field. lra.
  - specialize (CC eq_refl). specialize (P' eq_refl). rewrite CC. rewrite K_Pk by (assumption || lra). field. lra.
Qed.
Lemma rsum_ext n f g : (forall k, (k < n)%nat -> f k = g k) -> rsum n f = rsum n g.
Proof. intros H. unfold rsum. assert (G : forall l, (forall k, In k l -> (k < n)%nat) -> fold_right (fun k a => f k + a) 0 l = fold_right (fun k a => g k + a) 0 l). { induction l as [|a l IH]; intros Hl; [reflexivity|]. cbn [fold_right]. rewrite IH, H; auto. - apply Hl. now left. - intros k Hk. apply Hl. now right. } apply G. intros k Hk. apply in_seq in Hk. lia. Qed.

(** C96: the propagator in memory *)
Theorem C96_propagator : forall L V prop gl x K m, let k := mom L (gbc gl) x in let h := khat k in
  V <> 0%Z -> c1 gl <= 0 -> (which_gauge gl = COULOMB -> c1 gl = 0) -> kinetic (c1 gl) k K ->
  exists f, mom_space_tlSym_gauge_propagator_of_imom L V prop gl x = Some f /\
  let P := Pr (f m) prop in
  (forall mu nu, (mu < 4)%nat -> (nu < 4)%nat -> P mu nu = P nu mu /\ snd (ss (f m) prop mu nu) = 0) /\
  (forall q, ~ in_ss prop q -> f m q = m q) /\
  (~ kept (zms gl) x \/ ~ regular gl k -> forall mu nu, (mu < 4)%nat -> (nu < 4)%nat -> P mu nu = 0) /\
  (kept (zms gl) x -> regular gl k -> forall mu nu, (mu < 4)%nat -> (nu < 4)%nat ->
    match which_gauge gl with
    | FEYNMAN => rsum 4 (fun rho => (K mu rho + h mu * h rho) * P rho nu) = dlt mu nu / IZR V
    | LANDAU => rsum 4 (fun rho => K mu rho * P rho nu) = (dlt mu nu - h mu * h nu / khat2 k) / IZR V /\ rsum 4 (fun rho => h rho * P rho nu) = 0
    | COULOMB => rsum 4 (fun rho => K mu rho * P rho nu) = (dlt mu nu - (if Nat.eqb mu 0 then 0 else h mu) * h nu / khat2_space k) / IZR V /\ h 1%nat * P 1%nat nu + h 2%nat * P 2%nat nu + h 3%nat * P 3%nat nu = 0
    end).
Proof.
  intros L V prop gl x K m k h HV C CC HK. destruct (propagator_run L V prop gl x) as (f & E & S); [intros G; left; auto|]. exists f. split; [exact E|]. destruct (S m) as [A B]. intros P.
  assert (EP : forall mu nu, (mu < 4)%nat -> (nu < 4)%nat -> P mu nu = Pval L V gl x mu nu) by (intros; unfold P, Pr; now rewrite A).
  assert (Hz : ~ kept (zms gl) x \/ ~ regular gl k -> forall mu nu, (mu < 4)%nat -> (nu < 4)%nat -> P mu nu = 0) by (intros; rewrite EP by assumption; now apply Pval_zero).
  assert (Hg : kept (zms gl) x -> regular gl k -> forall mu nu, (mu < 4)%nat -> (nu < 4)%nat -> P mu nu = Gv gl h mu nu / IZR V) by (intros; rewrite EP by assumption; now apply Pval_good).
  split; [|split; [intros; apply B; tauto|split; [exact Hz|]]].
  - intros mu nu H1 H2. split; [|now rewrite A]. destruct (kept_dec (zms gl) x) as [Kp|Kn]; [|rewrite !Hz by auto; reflexivity].
    assert (D : regular gl k \/ ~ regular gl k) by (unfold regular; destruct (which_gauge gl); [destruct (Rle_dec (/ 10 ^ 14) (khat2 k))|destruct (Rle_dec (/ 10 ^ 14) (khat2 k))|destruct (Rlt_dec (/ 10 ^ 14) (khat2_space k))]; tauto).
    destruct D as [D|D]; [|rewrite !Hz by auto; reflexivity]. rewrite !Hg by assumption. now rewrite Gv_sym.
  - intros Kp Rg mu nu H1 H2. specialize (Hg Kp Rg). apply not_0_IZR in HV. pose proof (K_Gv gl k C CC Rg mu nu H1 H2) as KG. destruct (regular_pos gl k Rg) as [P0 P1]. fold h in KG, P0, P1.
    assert (KP : rsum 4 (fun rho => K mu rho * P rho nu) = (dlt mu nu - wv gl h mu * h nu) / IZR V).
    { rewrite <- KG. transitivity (rsum 4 (fun rho => K0 (c1 gl) h mu rho * (Gv gl h rho nu / IZR V))).
      - apply rsum_ext. intros rho Hr. rewrite Hg by assumption. now rewrite (kinetic_only (c1 gl) k K HK) by assumption.
      - unfold rsum. cbn [seq fold_right]. field. exact HV. }
    unfold wv in KP. unfold Gv in Hg. destruct (which_gauge gl) eqn:G.
    + transitivity (rsum 4 (fun rho => K mu rho * P rho nu) + h mu * rsum 4 (fun rho => h rho * P rho nu)); [unfold rsum; cbn [seq fold_right]; ring|]. rewrite KP.
      assert (T : rsum 4 (fun rho => h rho * P rho nu) = h nu / s2 h / IZR V).
      { transitivity (rsum 4 (fun rho => h rho * Pc (c1 gl) 1 h nu rho) / IZR V).
        - unfold rsum. cbn [seq fold_right]. rewrite !Hg by (assumption || lia). rewrite !(Pc_sym _ _ _ _ nu) by (assumption || lia). field. exact HV.
        - rewrite Pc_trans by assumption. field; repeat split; first [exact HV|lra]. }
      rewrite T. field; repeat split; first [exact HV|lra].
    + split; [rewrite KP; change (khat2 k) with (s2 h); field; repeat split; first [exact HV|lra]|].
      transitivity (rsum 4 (fun rho => h rho * Pc (c1 gl) 0 h nu rho) / IZR V).
      * unfold rsum. cbn [seq fold_right]. rewrite !Hg by (assumption || lia). rewrite !(Pc_sym _ _ _ _ nu) by (assumption || lia). field. exact HV.
      * rewrite Pc_trans by assumption. field; repeat split; first [exact HV|lra].
    + specialize (P1 eq_refl). split.
      * rewrite KP. change (khat2_space k) with (hs h). unfold sp, b2R. destruct (Nat.eqb mu 0); cbn [negb]; field; (repeat split; first [exact HV|lra]).
      * rewrite !Hg by (assumption || lia). transitivity ((h 1%nat * Pk h 1 nu + h 2%nat * Pk h 2 nu + h 3%nat * Pk h 3 nu) / IZR V); [field; exact HV|]. rewrite Pk_trans by (assumption || lra). field. exact HV.
Qed.
Print Assumptions C96_propagator.

(** C96: there is one kinetic operator, and it is not negative and vanishes on the pure gauges *)
Theorem C96_kinetic : forall c1 k,
  (exists K, kinetic c1 k K) /\
  (forall K K', kinetic c1 k K -> kinetic c1 k K' -> forall mu nu, (mu < 4)%nat -> (nu < 4)%nat -> K mu nu = K' mu nu) /\
  (forall K, kinetic c1 k K -> forall mu, (mu < 4)%nat -> rsum 4 (fun nu => K mu nu * khat k nu) = 0) /\
  (c1 <= 0 -> forall a, 0 <= action c1 k a).
Proof.
  intros c1 k. split; [exists (K0 c1 (khat k)); apply kinetic_ex|]. split; [|split].
  - intros K K' H H' mu nu H1 H2. now rewrite (kinetic_only c1 k K), (kinetic_only c1 k K').
  - intros K H mu H1. rewrite <- (K0_trans c1 (khat k) mu H1). apply rsum_ext. intros nu H2. now rewrite (kinetic_only c1 k K).
  - intros C a. rewrite action_form. pose proof (form_K0 c1 (khat k) a C). lra.
Qed.
Print Assumptions C96_kinetic.

(** the Coulomb gauge exists for the Wilson action only *)
Theorem C96_crash : forall L V prop gl x, which_gauge gl = COULOMB -> c1 gl <> 0 -> kept (zms gl) x -> mom_space_tlSym_gauge_propagator_of_imom L V prop gl x = None.
Proof. exact propagator_crash. Qed.
Print Assumptions C96_crash.

(** *** exchange between currents *)
Lemma exch (K P1 P2 : nat -> nat -> R) (w1 w2 h : nat -> R) (v : R) J J' : v <> 0 ->
  (forall mu nu, (mu < 4)%nat -> (nu < 4)%nat -> K mu nu = K nu mu) ->
  (forall mu nu, (mu < 4)%nat -> (nu < 4)%nat -> P1 mu nu = P1 nu mu) -> (forall mu nu, (mu < 4)%nat -> (nu < 4)%nat -> P2 mu nu = P2 nu mu) ->
  (forall mu nu, (mu < 4)%nat -> (nu < 4)%nat -> rsum 4 (fun rho => K mu rho * P1 rho nu) = (dlt mu nu - w1 mu * h nu) / v) ->
  (forall mu nu, (mu < 4)%nat -> (nu < 4)%nat -> rsum 4 (fun rho => K mu rho * P2 rho nu) = (dlt mu nu - w2 mu * h nu) / v) ->
  csum 4 (fun mu => h mu * J mu)%C = 0%C -> csum 4 (fun mu => h mu * J' mu)%C = 0%C -> exchange P1 J J' = exchange P2 J J'.
Proof.
  intros Hv SK S1 S2 E1 E2 HJ HJ'.
  assert (HJc : csum 4 (fun mu => h mu * Cconj (J mu))%C = 0%C).
  { apply (f_equal Cconj) in HJ. cbn [csum] in *. destruct (J 0%nat), (J 1%nat), (J 2%nat), (J 3%nat). unfold Cconj, Cmult, Cplus, RtoC in *. cbn in *. injection HJ as A B. f_equal; lra. }
  set (u := fun rho => csum 4 (fun mu => P2 rho mu * Cconj (J mu))%C). set (t := fun rho => csum 4 (fun mu => P1 rho mu * J' mu)%C).
  assert (App : forall (P : nat -> nat -> R) (w : nat -> R) (I : nat -> C), (forall mu nu, (mu < 4)%nat -> (nu < 4)%nat -> rsum 4 (fun rho => K mu rho * P rho nu) = (dlt mu nu - w mu * h nu) / v) -> csum 4 (fun mu => h mu * I mu)%C = 0%C ->
    forall mu, (mu < 4)%nat -> (RtoC v * csum 4 (fun rho => K mu rho * csum 4 (fun nu => P rho nu * I nu)))%C = I mu).
  { intros P w I E HI mu Hm. transitivity (csum 4 (fun nu => (v * rsum 4 (fun rho => K mu rho * P rho nu))%R * I nu)%C).
    - unfold rsum. cbn [csum seq fold_right]. rewrite ?RtoC_mult, ?RtoC_plus, ?RtoC_mult. ring.
    - transitivity (csum 4 (fun nu => (dlt mu nu - w mu * h nu)%R * I nu)%C).
      + apply csum_ext. intros nu Hn. rewrite E by assumption. do 2 f_equal. field. exact Hv.
      + transitivity (I mu - w mu * csum 4 (fun nu => h nu * I nu))%C; [|rewrite HI; ring]. revert Hm. clear. intros Hm. four mu Hm; unfold dlt; cbn [csum Nat.eqb]; rewrite ?RtoC_minus, ?RtoC_mult; ring. }
  pose proof (App P2 w2 (fun mu => Cconj (J mu)) E2 HJc) as Hu. pose proof (App P1 w1 J' E1 HJ') as Ht. fold u in Hu. fold t in Ht. cbv beta in Hu.
  transitivity (csum 4 (fun mu => Cconj (J mu) * t mu)%C); [unfold exchange, t; cbn [csum]; ring|].
  transitivity (csum 4 (fun mu => u mu * J' mu)%C).
  2: { unfold exchange, u. cbn [csum]. rewrite !(S2 1%nat 0%nat), !(S2 2%nat 0%nat), !(S2 3%nat 0%nat), !(S2 2%nat 1%nat), !(S2 3%nat 1%nat), !(S2 3%nat 2%nat) by lia. ring. }
  transitivity (csum 4 (fun mu => (RtoC v * csum 4 (fun rho => K mu rho * u rho)) * t mu)%C).
  { apply csum_ext. intros mu Hm. f_equal. symmetry. now apply Hu. }
  transitivity (csum 4 (fun mu => u mu * (RtoC v * csum 4 (fun rho => K mu rho * t rho)))%C).
  2: { apply csum_ext. intros mu Hm. f_equal. now apply Ht. }
  cbn [csum]. rewrite !(SK 1%nat 0%nat), !(SK 2%nat 0%nat), !(SK 3%nat 0%nat), !(SK 2%nat 1%nat), !(SK 3%nat 1%nat), !(SK 3%nat 2%nat) by lia. ring.
Qed.
Lemma KP_all L V gl x : V <> 0%Z -> c1 gl <= 0 -> (which_gauge gl = COULOMB -> c1 gl = 0) -> kept (zms gl) x -> let k := mom L (gbc gl) x in regular gl k ->
  forall mu nu, (mu < 4)%nat -> (nu < 4)%nat -> rsum 4 (fun rho => K0 (c1 gl) (khat k) mu rho * Pval L V gl x rho nu) = (dlt mu nu - wv gl (khat k) mu * khat k nu) / IZR V.
Proof.
  intros HV C CC Kp k Rg mu nu H1 H2. rewrite <- (K_Gv gl k) by assumption. transitivity (rsum 4 (fun rho => K0 (c1 gl) (khat k) mu rho * (Gv gl (khat k) rho nu / IZR V))).
  - apply rsum_ext. intros rho Hr. now rewrite Pval_good.
  - apply not_0_IZR in HV. unfold rsum. cbn [seq fold_right]. field. exact HV.
Qed.
Lemma Pval_sym L V gl x mu nu : V <> 0%Z -> (mu < 4)%nat -> (nu < 4)%nat -> Pval L V gl x mu nu = Pval L V gl x nu mu.
Proof.
  intros HV H1 H2. set (k := mom L (gbc gl) x). destruct (kept_dec (zms gl) x) as [Kp|Kn]; [|rewrite !Pval_zero by auto; reflexivity].
  assert (D : regular gl k \/ ~ regular gl k) by (unfold regular; destruct (which_gauge gl); [destruct (Rle_dec (/ 10 ^ 14) (khat2 k))|destruct (Rle_dec (/ 10 ^ 14) (khat2 k))|destruct (Rlt_dec (/ 10 ^ 14) (khat2_space k))]; tauto).
  destruct D as [D|D]; [|rewrite !Pval_zero by auto; reflexivity]. rewrite !Pval_good by assumption. now rewrite Gv_sym.
Qed.
(** C96: what is exchanged between two conserved currents does not depend on the gauge *)
Theorem C96_gauge_independence : forall L V prop prop' gl gl' x m m' f f' J J', let k := mom L (gbc gl) x in
  V <> 0%Z -> c1 gl <= 0 -> (which_gauge gl = COULOMB \/ which_gauge gl' = COULOMB -> c1 gl = 0) ->
  c1 gl' = c1 gl -> gbc gl' = gbc gl -> zms gl' = zms gl -> / 10 ^ 14 < khat2_space k -> conserved k J -> conserved k J' ->
  mom_space_tlSym_gauge_propagator_of_imom L V prop gl x = Some f -> mom_space_tlSym_gauge_propagator_of_imom L V prop' gl' x = Some f' ->
  exchange (Pr (f m) prop) J J' = exchange (Pr (f' m') prop') J J'.
Proof.
  intros L V prop prop' gl gl' x m m' f f' J J' k HV C CC Ec Eb Ez Hs HJ HJ' Ef Ef'.
  destruct (propagator_run L V prop gl x) as (f1 & E & S); [intros G; left; auto|]. rewrite Ef in E. injection E as <-. destruct (propagator_run L V prop' gl' x) as (f2 & E & S'); [intros G; left; rewrite Ec; auto|]. rewrite Ef' in E. injection E as <-.
  assert (X : forall P Q, (forall mu nu, (mu < 4)%nat -> (nu < 4)%nat -> P mu nu = Q mu nu) -> exchange P J J' = exchange Q J J').
  { intros P Q H. unfold exchange. apply csum_ext. intros mu Hm. apply csum_ext. intros nu Hn. now rewrite H. }
  rewrite (X (Pr (f m) prop) (Pval L V gl x)) by (intros; unfold Pr; now rewrite (proj1 (S m))). rewrite (X (Pr (f' m') prop') (Pval L V gl' x)) by (intros; unfold Pr; now rewrite (proj1 (S' m'))).
  destruct (kept_dec (zms gl) x) as [Kp|Kn]. 2: { apply X. intros. rewrite !Pval_zero; auto. left. now rewrite Ez. }
  assert (Rg : forall g, gbc g = gbc gl -> regular g k). { intros g Eg. unfold regular. pose proof (hs_s2 (khat k)) as H. change (hs (khat k)) with (khat2_space k) in H. change (s2 (khat k)) with (khat2 k) in H. destruct (which_gauge g); lra. }
  apply (exch (K0 (c1 gl) (khat k)) _ _ (wv gl (khat k)) (wv gl' (khat k)) (khat k) (IZR V)).
  - now apply not_0_IZR.
  - intros. now apply K0_sym.
  - intros. now apply Pval_sym.
  - intros. now apply Pval_sym.
  - apply KP_all; auto.
  - pose proof (KP_all L V gl' x HV) as H. rewrite Ec, Eb, Ez in H. apply H; auto.
  - exact HJ.
  - exact HJ'.
Qed.
Print Assumptions C96_gauge_independence.

(** *** positivity *)
Lemma pos_real (K P : nat -> nat -> R) (w h r : nat -> R) (v kap : R) : v > 0 -> kap >= 0 ->
  (forall mu nu, (mu < 4)%nat -> (nu < 4)%nat -> rsum 4 (fun rho => K mu rho * P rho nu) = (dlt mu nu - w mu * h nu) / v) ->
  (forall nu, (nu < 4)%nat -> rsum 4 (fun mu => w mu * P mu nu) = kap * h nu) ->
  (forall u, 0 <= rsum 4 (fun mu => rsum 4 (fun nu => K mu nu * (u mu * u nu)))) ->
  0 <= rsum 4 (fun mu => rsum 4 (fun nu => P mu nu * (r mu * r nu))).
Proof.
  intros Hv Hk E W PK. set (u := fun rho => rsum 4 (fun mu => P rho mu * r mu)). set (hr := rsum 4 (fun mu => h mu * r mu)).
  assert (A : forall mu, (mu < 4)%nat -> r mu = v * rsum 4 (fun rho => K mu rho * u rho) + w mu * hr).
  { intros mu Hm. transitivity (v * rsum 4 (fun nu => rsum 4 (fun rho => K mu rho * P rho nu) * r nu) + w mu * hr).
    - rewrite (rsum_ext 4 (fun nu => rsum 4 (fun rho => K mu rho * P rho nu) * r nu) (fun nu => (dlt mu nu - w mu * h nu) / v * r nu)) by (intros nu Hn; now rewrite E).
      unfold hr. four mu Hm; unfold rsum, dlt; cbn [seq fold_right Nat.eqb]; field; lra.
    - unfold u, rsum. cbn [seq fold_right]. ring. }
  assert (B : rsum 4 (fun mu => w mu * u mu) = kap * hr).
  { transitivity (rsum 4 (fun nu => rsum 4 (fun mu => w mu * P mu nu) * r nu)); [unfold u, rsum; cbn [seq fold_right]; ring|]. rewrite (rsum_ext 4 _ (fun nu => kap * h nu * r nu)) by (intros nu Hn; now rewrite W). unfold hr, rsum. cbn [seq fold_right]. ring. }
  assert (Q : rsum 4 (fun mu => rsum 4 (fun nu => P mu nu * (r mu * r nu))) = v * rsum 4 (fun mu => rsum 4 (fun nu => K mu nu * (u mu * u nu))) + kap * (hr * hr)).
  { transitivity (rsum 4 (fun mu => r mu * u mu)); [unfold u, rsum; cbn [seq fold_right]; ring|].
    rewrite (rsum_ext 4 _ (fun mu => (v * rsum 4 (fun rho => K mu rho * u rho) + w mu * hr) * u mu)) by (intros mu Hm; f_equal; now apply A).
    transitivity (v * rsum 4 (fun mu => rsum 4 (fun nu => K mu nu * (u mu * u nu))) + hr * rsum 4 (fun mu => w mu * u mu)); [clearbody u hr; unfold rsum; cbn [seq fold_right]; ring|]. rewrite B. ring. }
  rewrite Q. apply Rplus_le_le_0_compat; apply Rmult_le_pos; try lra; [apply PK|apply Rle_0_sqr].
Qed.
Lemma wv_P gl k : c1 gl <= 0 -> (which_gauge gl = COULOMB -> c1 gl = 0) -> regular gl k -> exists kap, kap >= 0 /\ forall nu, (nu < 4)%nat -> rsum 4 (fun mu => wv gl (khat k) mu * Gv gl (khat k) mu nu) = kap * khat k nu.
Proof.
  intros C CC Rg. destruct (regular_pos gl k Rg) as [P0 P1]. set (h := khat k) in *. unfold wv, Gv. 
  assert (Cov : forall alpha, alpha >= 0 -> exists kap, kap >= 0 /\ forall nu, (nu < 4)%nat -> rsum 4 (fun mu => h mu / s2 h * Pc (c1 gl) alpha h mu nu) = kap * h nu).
  { intros alpha Ha. exists (alpha / (s2 h * s2 h)). split.
    - apply Rle_ge, Rmult_le_pos; [lra|]. left. apply Rinv_0_lt_compat. nra.
    - intros nu Hn. transitivity (rsum 4 (fun mu => h mu * Pc (c1 gl) alpha h nu mu) / s2 h).
      + set (d := s2 h). unfold rsum. cbn [seq fold_right]. rewrite !(Pc_sym _ _ _ nu) by (assumption || lia). unfold Rdiv. ring.
      + rewrite Pc_trans by assumption. field. lra. }
  destruct (which_gauge gl); [apply (Cov 1); lra|apply (Cov 0); lra|]. specialize (P1 eq_refl). exists 0. split; [lra|]. intros nu Hn.
  transitivity ((h 1%nat * Pk h 1 nu + h 2%nat * Pk h 2 nu + h 3%nat * Pk h 3 nu) / hs h); [|rewrite Pk_trans by (assumption || lra); field; lra].
  set (d := hs h). unfold rsum, sp, b2R. cbn [seq fold_right Nat.eqb negb]. unfold Rdiv. ring.
Qed.
(** C96: no mode has a negative weight: the square root which the stochastic photon needs exists *)
Theorem C96_positive : forall L V prop gl x m f (a : nat -> C),
  (V > 0)%Z -> c1 gl <= 0 -> (which_gauge gl = COULOMB -> c1 gl = 0) -> mom_space_tlSym_gauge_propagator_of_imom L V prop gl x = Some f ->
  0 <= fst (exchange (Pr (f m) prop) a a) /\ snd (exchange (Pr (f m) prop) a a) = 0.
Proof.
  intros L V prop gl x m f a HV C CC Ef. destruct (propagator_run L V prop gl x) as (f1 & E & S); [intros G; left; auto|]. rewrite Ef in E. injection E as <-. destruct (S m) as [A _].
  set (P := Pval L V gl x) in *. assert (Sy : forall mu nu, (mu < 4)%nat -> (nu < 4)%nat -> P mu nu = P nu mu) by (intros; apply Pval_sym; [lia|assumption|assumption]).
  assert (X : exchange (Pr (f m) prop) a a = exchange P a a). { unfold exchange. apply csum_ext. intros mu Hm. apply csum_ext. intros nu Hn. unfold Pr. now rewrite A. }
  rewrite X. clear X A.
  assert (Pos : forall r, 0 <= rsum 4 (fun mu => rsum 4 (fun nu => P mu nu * (r mu * r nu)))).
  { intros r. set (k := mom L (gbc gl) x).
    assert (Z : ~ kept (zms gl) x \/ ~ regular gl k -> 0 <= rsum 4 (fun mu => rsum 4 (fun nu => P mu nu * (r mu * r nu)))).
    { intros H. right. symmetry. unfold P, rsum. cbn [seq fold_right]. rewrite !Pval_zero by assumption. ring. }
    destruct (kept_dec (zms gl) x) as [Kp|Kn]; [|auto].
    assert (D : regular gl k \/ ~ regular gl k) by (unfold regular; destruct (which_gauge gl); [destruct (Rle_dec (/ 10 ^ 14) (khat2 k))|destruct (Rle_dec (/ 10 ^ 14) (khat2 k))|destruct (Rlt_dec (/ 10 ^ 14) (khat2_space k))]; tauto).
    destruct D as [D|D]; [|auto]. destruct (wv_P gl k C CC D) as (kap & Hk & W).
    assert (VP : 0 < IZR V) by (apply IZR_lt; lia).
    apply (pos_real (K0 (c1 gl) (khat k)) P (wv gl (khat k)) (khat k) r (IZR V) (kap / IZR V)).
    - exact VP.
    - apply Rle_ge, Rmult_le_pos; [lra|]. left. now apply Rinv_0_lt_compat.
    - apply KP_all; auto. lia.
    - intros nu Hn. transitivity (rsum 4 (fun mu => wv gl (khat k) mu * Gv gl (khat k) mu nu) / IZR V).
      + transitivity (rsum 4 (fun mu => wv gl (khat k) mu * (Gv gl (khat k) mu nu / IZR V))); [apply rsum_ext; intros mu Hm; f_equal; apply Pval_good; auto; lia|]. unfold rsum. cbn [seq fold_right]. field. lra.
      + rewrite W by assumption. field. lra.
    - intros u. pose proof (form_K0 (c1 gl) (khat k) (fun i => RtoC (u i)) C) as F. unfold form in F. eapply Rle_trans; [exact F|]. right. unfold rsum. cbn [seq fold_right RtoC fst snd]. ring. }
  pose proof (Pos (fun i => fst (a i))) as Pa. pose proof (Pos (fun i => snd (a i))) as Pb. unfold exchange. cbn [csum]. unfold rsum in Pa, Pb. cbn [seq fold_right] in Pa, Pb.
  rewrite !(Sy 1%nat 0%nat), !(Sy 2%nat 0%nat), !(Sy 3%nat 0%nat), !(Sy 2%nat 1%nat), !(Sy 3%nat 1%nat), !(Sy 3%nat 2%nat) in * by lia.
  destruct (a 0%nat) as [a0 b0], (a 1%nat) as [a1 b1], (a 2%nat) as [a2 b2], (a 3%nat) as [a3 b3]. cbn in *. split; [|ring].
  eapply Rle_trans; [apply (Rplus_le_le_0_compat _ _ Pa Pb)|]. right. ring.
Qed.
Print Assumptions C96_positive.

(** *** Example: the smallest momentum of a lattice of side 4, tree level Symanzik action in the Feynman gauge *)
Definition exg (g : which_gauge_t) (c : R) : gauge_info := {| zms := UNNO_ALEMANNA; c1 := c; which_gauge := g; gbc := fun _ => 0 |}.
Definition exx (mu : nat) : Z := if Nat.eqb mu 1 then 2%Z else 0%Z.
Example C96_ex : kept UNNO_ALEMANNA exx /\ khat2 (mom (fun _ => 4%Z) (fun _ => 0) exx) = 4 /\ regular (exg FEYNMAN (- / 12)) (mom (fun _ => 4%Z) (fun _ => 0) exx) /\ regular (exg COULOMB 0) (mom (fun _ => 4%Z) (fun _ => 0) exx) /\
  exists f, mom_space_tlSym_gauge_propagator_of_imom (fun _ => 4%Z) 256 [0%nat] (exg LANDAU (- / 12)) exx = Some f /\ Pr (f (fun _ => RtoC 1)) [0%nat] 1%nat 1%nat = 0.
Proof.
  assert (M1 : mom (fun _ => 4%Z) (fun _ => 0) exx 1 = PI) by (unfold mom, exx; cbn [Nat.eqb]; field).
  assert (M0 : forall mu, mu <> 1%nat -> mom (fun _ => 4%Z) (fun _ => 0) exx mu = 0) by (intros mu N; unfold mom, exx; apply Nat.eqb_neq in N; rewrite N; field).
  assert (H1 : khat (mom (fun _ => 4%Z) (fun _ => 0) exx) 1 = 2) by (unfold khat; rewrite M1, sin_PI2; ring).
  assert (H0 : forall mu, mu <> 1%nat -> khat (mom (fun _ => 4%Z) (fun _ => 0) exx) mu = 0) by (intros mu N; unfold khat; rewrite M0 by assumption; replace (0 / 2) with 0 by field; rewrite sin_0; ring).
  assert (Ks : kept UNNO_ALEMANNA exx) by (exists 1%nat; split; [lia|discriminate]).
  assert (K2 : khat2 (mom (fun _ => 4%Z) (fun _ => 0) exx) = 4) by (unfold khat2, rsum; cbn [seq fold_right]; rewrite H1, !H0 by lia; ring).
  assert (Tl : / 10 ^ 14 < 4) by (apply (Rmult_lt_reg_l (10 ^ 14)); [lra|]; rewrite Rinv_r; lra).
  split; [exact Ks|]. split; [exact K2|]. split; [unfold regular; cbn [exg which_gauge]; rewrite K2; lra|].
  split; [unfold regular; cbn [exg which_gauge]; unfold khat2_space; rewrite H1, !H0 by lia; lra|].
  destruct (C96_propagator (fun _ => 4%Z) 256 [0%nat] (exg LANDAU (- / 12)) exx (K0 (- / 12) (khat (mom (fun _ => 4%Z) (fun _ => 0) exx))) (fun _ => RtoC 1)) as (f & E & _ & _ & _ & G).
  - discriminate.
  - cbn. lra.
  - discriminate.
  - apply kinetic_ex.
  - exists f. split; [exact E|]. destruct (G Ks) with (mu := 1%nat) (nu := 1%nat) as [_ T].
    + unfold regular. cbn [exg which_gauge gbc]. rewrite K2. lra.
    + lia.
    + lia.
    + unfold rsum in T. cbn [seq fold_right exg gbc] in T. rewrite H1, !H0 in T by lia. lra.
Qed.
