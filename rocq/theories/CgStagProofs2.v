(** inv_stD_cg, and the rational function of the squared operator *)
From Coq Require Import Reals Lra Lia List ZArith Arith FunctionalExtensionality.
From Coquelicot Require Import Complex.
From Verif Require Import CplxModel MatModel MatSpec MatProofs StagModel StagSpec StagProofs StagProofs2 StagProofs3 StagAlg StagAlg2 CgModel CgStagModel CgStagSpec CgStagProofs.
From Verif Require CgSpec CgAlg CgProofs CgmProofs CgmProofs2 Prop_Stag.
Import ListNotations.
Open Scope C_scope.
Set Bullet Behavior "Strict Subproofs".
Local Notation rveq := CgSpec.veq.

Lemma apart_parts a i j : i <> j -> apart a@[i] a@[j].
Proof.
  intros H l l' E. unfold at_ in E. change (l ++ i :: a) with (l ++ [i] ++ a) in E. change (l' ++ j :: a) with (l' ++ [j] ++ a) in E.
  rewrite !app_assoc in E. apply app_inv_tail in E. apply app_inj_tail in E. destruct E; congruence.
Qed.
Lemma fld_below m m' a : (forall l, m' (l ++ a) = m (l ++ a)) -> fld m' a = fld m a.
Proof. intros H. do 2 (apply functional_extensionality; intros ?). unfold fld, vec, at_. apply (H [_; _]). Qed.
Lemma lks_below m m' a : (forall l, m' (l ++ a) = m (l ++ a)) -> lks m' a = lks m a.
Proof. intros H. do 5 (apply functional_extensionality; intros ?). unfold lks, mat, at_. apply (H [_; _; _; _; _]). Qed.
Lemma out_below n out a : apart out a -> forall l x, (x < n)%nat -> ~ in_vec out@[x] (l ++ a).
Proof. intros H l x _ (i & _ & E). symmetry in E. apply (H [i; x] l). exact E. Qed.
Lemma put_below m out a f : apart out a -> forall l, put_field m out f (l ++ a) = m (l ++ a).
Proof. intros H l. apply put_other. intros x i E. symmetry in E. apply (H [i; x] l). exact E. Qed.
Lemma sdot_scal2 n (a : R) f : fst (sdot n (fcomb a f 0 f) (fcomb a f 0 f)) = (a * a * fst (sdot n f f))%R.
Proof. rewrite sdot_comb_l, !sdot_comb_r. unfold Cplus, Cmult, RtoC. cbn [fst snd]. ring. Qed.

Section Solve.
Variables (sched : nat -> list nat) (nup ndw : nat -> nat -> nat -> nat) (n : nat).
Hypothesis Hs : forall l, order n (sched l).
Hypothesis L : lattice n nup ndw.
Variables (vin vout temp o vu vd cu cd : path).
Variables (conf : path).
Hypothesis HA : ForallOrdPairs apart [vout; vin; temp; conf; o; vu; vd; cu; cd].
Notation inv_cg := (inv_stD_cg sched nup ndw n vin vout temp o vu vd cu cd).
Notation ap_ := (applier sched nup ndw vin vout temp o vu vd cu cd conf).

Section One.
Variables (tdag sol source : path) (mass : R) (niter : Z) (residue : R) (m : mem).
Hypothesis A1 : apart tdag conf. Hypothesis A2 : apart tdag source. Hypothesis A3 : apart sol conf. Hypothesis A4 : apart sol source.
Notation U := (lks m conf).
Notation src := (fun p => fld m source@[p]).
Notation b := (stD nup ndw U (-1) mass 0 src).
Let m1 := evn_apply_stD_dag sched nup ndw tdag conf mass source m.
Lemma m1_spec : feq n (fld m1 tdag) b /\ (forall a l, apart tdag a -> m1 (l ++ a) = m (l ++ a)) /\ (forall q, (forall x i, q <> tdag@[x]@[i]) -> m1 q = m q).
Proof.
  destruct (evn_ok sched nup ndw n Hs tdag conf mass source (-1) A1 A2 m) as [E F]. split; [exact E|]. split.
  - intros a l Ha. apply F; [|tauto]. intros x Hx. apply (out_below n tdag a Ha l x Hx).
  - intros q Hq. apply F; [|tauto]. intros x _ (i & _ & Eq). exact (Hq x i Eq).
Qed.
Lemma lks1 : lks m1 conf = U. Proof. apply lks_below. intros l. apply (proj1 (proj2 m1_spec)). exact A1. Qed.
Lemma src1 p : fld m1 source@[p] = fld m source@[p]. Proof. apply fld_below. intros l. apply (proj1 (proj2 m1_spec)). apply apart_at_r, A2. Qed.
Lemma b_norm : vnorm2 (6 * n) (to_r (get_field m1 tdag)) = fst (sdot n b b).
Proof.
  rewrite <- rdot_sdot. unfold vnorm2. destruct m1_spec as (E & _). apply CgAlg.rdot_ext; apply to_r_ext; exact E.
Qed.
Theorem inv_sound guess m' : mass <> 0%R -> (1 <= niter)%Z -> inv_cg tdag sol guess conf mass niter residue source m = Some m' ->
  let s := fun p => fld m' sol@[p] in
  let e := fcomb 1 (stD nup ndw U 1 mass 0 s) (-1) (src 0%nat) in
  feq n (stD nup ndw U 1 mass 1 s) (src 1%nat) /\
  (fst (sdot n e e) < residue * fst (sdot n b b) / (mass * mass))%R /\
  forall q, (forall l, q <> l ++ sol) -> (forall l, q <> l ++ tdag) -> m' q = m q.
Proof.
  intros Hm Hn. unfold inv_stD_cg, inv_evn_stD_cg, inv_stD2ee_m2_cg. fold m1.
  destruct (cg_invert _ _ _ _ _ _) as [v|] eqn:E; [|discriminate]. intros [= <-].
  apply CgProofs.cg_sound in E; [|apply (applier_linear sched nup ndw n Hs L vin vout temp o vu vd cu cd conf m1 HA)|exact Hn].
  rewrite (residual_ok sched nup ndw n Hs L vin vout temp o vu vd cu cd conf m1 HA), lks1, b_norm in E. cbv zeta in E.
  set (m2 := put_field m1 sol@[EVN] (of_r v)).
  set (op := apply_st2Doe sched nup ndw 4 sol@[ODD] conf sol@[EVN];; _). set (m3 := op m2).
  pose proof (apart_parts sol ODD EVN ltac:(discriminate)) as A5.
  assert (A6 : apart sol@[EVN] conf) by (apply apart_at_l, A3). assert (A7 : apart sol@[EVN] source) by (apply apart_at_l, A4).
  assert (A8 : apart sol@[ODD] conf) by (apply apart_at_l, A3). assert (A9 : apart sol@[ODD] source) by (apply apart_at_l, A4).
  destruct (then_deg sched nup ndw n Hs 5 sol@[ODD] source@[ODD] (/ mass) (- / mass / 2)
     (fun g site ideg => ((g source@[ODD]@[site]@[ideg] - 0.5 * g sol@[ODD]@[site]@[ideg]) / mass)%R) _ _
     (st2Doe_ok sched nup ndw n Hs 4 sol@[ODD] conf sol@[EVN] A8 A5) (apart_at_r _ _ _ A9) ltac:(intros; unfold Rdiv; lra) m2) as [S1 S2].
  fold op in S1, S2. fold m3 in S1, S2.
  assert (lks2 : lks m2 conf = U). { rewrite <- lks1. apply lks_below. apply put_below. exact A6. }
  assert (src2 : forall p, fld m2 source@[p] = fld m source@[p]).
  { intros p. rewrite <- src1. apply fld_below. apply put_below. apply apart_at_r, A7. }
  assert (e2 : fld m2 sol@[EVN] = of_r v) by (apply get_put).
  assert (e3 : fld m3 sol@[EVN] = of_r v).
  { rewrite <- e2. apply fld_below. intros l. apply S2; [|tauto]. intros x Hx. apply (out_below n _ _ A5 l x Hx). }
  rewrite lks2, src2, e2 in S1. unfold EVN, ODD in *.
  set (s := fun p => fld m3 sol@[p]). set (e := fcomb 1 (stD nup ndw U 1 mass 0 s) (-1) (fld m source@[0])).
  set (rho := fcomb 1 (stD2ee nup ndw U (mass * mass) (s 0%nat)) (-1) b).
  assert (s0 : s 0%nat = of_r v) by exact e3.
  destruct (solve n nup ndw L U mass src rho s Hm) as [R0 R1].
  { intros x Hx i Hi. unfold rho, fcomb. replace (RtoC (-1)) with (- RtoC 1) by (rewrite <- RtoC_opp; f_equal; lra). ring. }
  { rewrite s0. exact S1. }
  split; [exact R1|]. split.
  - assert (feq n e (fcomb (/ mass) rho 0 rho)) as Ee.
    { intros x Hx i Hi. unfold e, fcomb at 1. rewrite (R0 x Hx i Hi). unfold fcomb. replace (RtoC (-1)) with (- RtoC 1) by (rewrite <- RtoC_opp; f_equal; lra). ring. }
    rewrite (sdot_ext n _ _ _ _ Ee Ee), sdot_scal2.
    assert (fst (sdot n rho rho) = fst (sdot n (fcomb 1 (get_field m1 tdag) (-1) (stD2ee nup ndw U (mass * mass) (of_r v))) (fcomb 1 (get_field m1 tdag) (-1) (stD2ee nup ndw U (mass * mass) (of_r v))))) as Er.
    { assert (feq n rho (fcomb (-1) (fcomb 1 (get_field m1 tdag) (-1) (stD2ee nup ndw U (mass * mass) (of_r v))) 0 (fcomb 1 (get_field m1 tdag) (-1) (stD2ee nup ndw U (mass * mass) (of_r v))))) as Er.
      { intros x Hx i Hi. unfold rho, fcomb. rewrite s0. rewrite <- (proj1 m1_spec x Hx i Hi). replace (RtoC (-1)) with (- RtoC 1) by (rewrite <- RtoC_opp; f_equal; lra). change (get_field m1 tdag x i) with (fld m1 tdag x i). ring. }
      rewrite (sdot_ext n _ _ _ _ Er Er), sdot_scal2. ring. }
    rewrite Er. apply (Rmult_lt_compat_l (/ mass * / mass)) in E; [unfold Rdiv; rewrite Rinv_mult_distr by exact Hm; lra|].
    rewrite <- Rinv_mult_distr by exact Hm. apply Rinv_0_lt_compat. nra.
  - intros q Q1 Q2. transitivity (m2 q).
    + apply S2; [|tauto]. intros x _ (i & _ & Eq). apply (Q1 [i; x; 1%nat]). exact Eq.
    + transitivity (m1 q).
      * apply put_other. intros x i Eq. apply (Q1 [i; x; 0%nat]). exact Eq.
      * apply m1_spec. intros x i Eq. apply (Q2 [i; x]). exact Eq.
Qed.
Theorem inv_total : mass <> 0%R -> (0 < residue)%R -> (Z.of_nat (6 * n) < niter)%Z -> fst (sdot n b b) <> 0%R ->
  exists m', inv_cg tdag sol None conf mass niter residue source m = Some m'.
Proof.
  intros Hm Hr Hn Hb. unfold inv_stD_cg, inv_evn_stD_cg, inv_stD2ee_m2_cg. fold m1. cbn [option_map].
  destruct (CgProofs.cg_total (6 * n) (ap_ m1 (mass * mass)) niter residue (to_r (get_field m1 tdag))) with
    (r0 := fun i => (to_r (get_field m1 tdag) i - ap_ m1 (mass * mass) (fun _ => 0) i)%R) (guess := @None rvec) as (v & ->).
  - apply (applier_symmetric sched nup ndw n Hs L vin vout temp o vu vd cu cd conf m1 HA).
  - apply (applier_positive sched nup ndw n Hs L vin vout temp o vu vd cu cd conf m1 HA). nra.
  - exact Hr.
  - rewrite b_norm. exact Hb.
  - exact Hn.
  - intros E. apply Hb. rewrite <- b_norm. unfold vnorm2. rewrite <- (CgAlg.rdot_ext _ _ _ _ _ E E). apply CgAlg.rdot_zero_l.
    intros d Hd. destruct (applier_linear sched nup ndw n Hs L vin vout temp o vu vd cu cd conf m1 HA (mass * mass)%R) as [X1 X2].
    rewrite (X1 (fun _ => 0%R) (fun i => 0 * 0 + 0 * 0)%R ltac:(intros ? _; ring) d Hd).
    etransitivity; [apply (X2 0%R 0%R (fun _ => 0%R) (fun _ => 0%R) d Hd)|ring].
  - reflexivity.
  - eauto.
Qed.
End One.

(** ** multishift *)
Section Multi.
Variables (m : mem) (pf : path) (niter : Z) (residue : R).
Notation U := (lks m conf).
Notation src := (fld m pf).
Notation inv_cgm := (inv_stD2ee_m2_cgm sched nup ndw n vin vout temp o vu vd cu cd conf).
Theorem cgm_st_sound poles sols : (1 <= niter)%Z -> inv_cgm poles niter residue pf m = Some sols ->
  Forall2 (fun p sol => let e := fcomb 1 src (-1) (stD2ee nup ndw U p (of_r sol)) in (fst (sdot n e e) < residue * fst (sdot n src src))%R) poles sols.
Proof.
  intros Hn H. unfold inv_stD2ee_m2_cgm in H. apply CgmProofs.cgm_sound in H; [|apply (applier_linear sched nup ndw n Hs L vin vout temp o vu vd cu cd conf m HA)|
    apply (applier_shifted sched nup ndw n Hs L vin vout temp o vu vd cu cd conf m HA)|exact Hn].
  revert sols H. induction poles as [|p poles IH]; intros sols H; cbn [map] in H; inversion H; subst; constructor; [|apply IH; assumption].
  cbv zeta. cbn [fst snd] in H2. rewrite (residual_ok sched nup ndw n Hs L vin vout temp o vu vd cu cd conf m HA) in H2. unfold vnorm2 in H2. rewrite rdot_sdot in H2. exact H2.
Qed.
Theorem cgm_st_total poles : (forall f, feq n (hop nup ndw U 1 f) (fun _ _ => 0%R) -> feq n f (fun _ _ => 0%R)) ->
  (forall p, In p poles -> (0 <= p)%R) -> (0 < residue)%R -> (Z.of_nat (6 * n) < niter)%Z -> fst (sdot n src src) <> 0%R ->
  exists sols, inv_cgm poles niter residue pf m = Some sols.
Proof.
  intros Hk Hp Hr Hn Hb. unfold inv_stD2ee_m2_cgm. apply CgmProofs2.cgm_total.
  - apply (applier_symmetric sched nup ndw n Hs L vin vout temp o vu vd cu cd conf m HA).
  - intros u Hu. rewrite (rdot_app sched nup ndw n Hs L vin vout temp o vu vd cu cd conf m HA), (D2_form n nup ndw L).
    destruct (sdot_pos n (hop nup ndw U 1 (of_r u))) as [H1 H2]. replace (/ RtoC 4) with (RtoC (/ 4)) by (rewrite RtoC_inv; [reflexivity|lra]).
    unfold Cplus, Cmult, RtoC. cbn [fst snd]. destruct (Req_dec (fst (sdot n (hop nup ndw U 1 (of_r u)) (hop nup ndw U 1 (of_r u)))) 0) as [E|E]; [|lra].
    exfalso. apply Hu. assert (feq n (of_r u) (fun _ _ => 0%R)) as F.
    { apply Hk. rewrite <- rdot_sdot in E. apply CgAlg.rdot_zero in E. intros x Hx i Hi. rewrite <- (of_to (hop nup ndw U 1 (of_r u)) x i Hi).
      rewrite (of_r_ext n _ _ E x Hx i Hi). reflexivity. }
    intros d Hd. rewrite <- (to_of u d). rewrite (to_r_ext n _ _ F d Hd). unfold to_r. destruct Nat.even; reflexivity.
  - unfold vnorm2. change (get_field m pf) with (fld m pf). rewrite rdot_sdot. exact Hb.
  - exact Hn.
  - intros s res H. apply in_map_iff in H. destruct H as (p & [= <- <-] & H). split; [apply Hp; exact H|exact Hr].
Qed.
Theorem rational_sound chi_e cons weights poles m' : (1 <= niter)%Z ->
  summ_src_and_all_inv_stD2ee_m2_cgm sched nup ndw n vin vout temp o vu vd cu cd chi_e conf cons weights poles niter residue pf m = Some m' ->
  (exists sols, Forall2 (fun p sol => let e := fcomb 1 src (-1) (stD2ee nup ndw U p sol) in (fst (sdot n e e) < residue * fst (sdot n src src))%R) poles sols /\
     feq n (fld m' chi_e) (wsum cons src weights sols)) /\
  forall q, (forall l, q <> l ++ chi_e) -> m' q = m q.
Proof.
  intros Hn. unfold summ_src_and_all_inv_stD2ee_m2_cgm. destruct (inv_cgm _ _ _ _ _) as [temps|] eqn:E; [|discriminate]. intros [= <-].
  apply cgm_st_sound in E; [|exact Hn]. split.
  - exists (map of_r temps). split.
    + clear - E. induction E; cbn [map]; constructor; assumption.
    + intros x Hx i Hi.
      change (fld (put_field m chi_e ?z) chi_e x i) with (get_field (put_field m chi_e z) chi_e x i). rewrite get_put.
      set (c0 := fun d => (to_r (get_field m pf) d * cons)%R).
      assert (G : forall ws ts c, of_r (fold_left (fun (chi : rvec) wt => fun d => (chi d + fst wt * snd wt d)%R) (combine ws ts) c) x i =
         of_r c x i + (wsum cons src ws (map of_r ts) x i - RtoC cons * src x i)).
      { induction ws as [|w ws IH]; intros ts c; [cbn; ring|]. destruct ts as [|t ts]; [cbn; ring|]. cbn [combine fold_left map wsum]. rewrite IH.
        assert (of_r (fun d => c d + fst (w, t) * snd (w, t) d)%R x i = of_r c x i + RtoC w * of_r t x i) as ->; [|ring].
        unfold of_r, Cplus, Cmult, RtoC. cbn [fst snd]. f_equal; ring. }
      rewrite G. assert (of_r c0 x i = RtoC cons * src x i) as ->; [|ring].
      change (src x i) with (get_field m pf x i). rewrite <- (of_to (get_field m pf) x i Hi). unfold of_r, c0, Cmult, RtoC. cbn [fst snd]. f_equal; ring.
  - intros q Q. apply put_other. intros x i Eq. apply (Q [i; x]). exact Eq.
Qed.
End Multi.
End Solve.
