(** The routines of CovModel compute the operators of CovSpec *)
From Coq Require Import Reals Lra Lia List Arith ZArith Setoid.
From Coquelicot Require Import Complex.
From Verif Require Import MatSpec MatAlg DiracProofs DiracModel DiracSpec TmModel TmSpec TmProofs TmAlg TmAlg2 CovModel CovSpec.
From Verif Require StagSpec.
Import ListNotations.
Open Scope C_scope.
Set Bullet Behavior "Strict Subproofs".
Notation sdot := TmSpec.sdot.

Lemma mulv_v (U : su3) (c : color) ic : unsafe_su3_prod_color U c ic = mvec U c ic.
Proof. unfold unsafe_su3_prod_color, mvec. cbn [csum]. ring. Qed.
Lemma summ_v a (U : su3) (c : color) ic : su3_summ_the_prod_color a U c ic = a ic + mvec U c ic.
Proof. unfold su3_summ_the_prod_color, mvec. cbn [csum]. ring. Qed.
Lemma dsumm_v a (U : su3) (c : color) ic : su3_dag_summ_the_prod_color a U c ic = a ic + mvec (dag U) c ic.
Proof. unfold su3_dag_summ_the_prod_color, mvec, dag. cbn [csum]. ring. Qed.
Lemma dsubt_v a (U : su3) (c : color) ic : su3_dag_subt_the_prod_color a U c ic = a ic - mvec (dag U) c ic.
Proof. unfold su3_dag_subt_the_prod_color, mvec, dag. cbn [csum]. ring. Qed.

(** a routine which puts a value in [out], uses [temp] and changes nothing else *)
Definition sets2 (n : nat) (out temp : nat) (m m' : smem) (v : sfield) : Prop :=
  m' out =[n]= v /\ forall a x, (a <> out /\ a <> temp) \/ (n <= x)%nat -> m' a x = m a x.
Lemma sets_to2 n o out temp v m : sets_obj n o out v -> sets2 n out temp m (o m) (v m).
Proof. intros H. destruct (H m) as [H1 H2]. split; [exact H1|]. intros a x Hx. apply H2. tauto. Qed.
Lemma acc n out temp (F : nat -> smem -> smem) (V : nat -> smem -> sfield) :
  (forall mu m, (mu < 4)%nat -> sets2 n out temp m (F mu m) (sadd (m out) (V mu m))) ->
  (forall mu m m', (mu < 4)%nat -> (forall a x, a <> out -> a <> temp -> m a x = m' a x) -> V mu m =[n]= V mu m') ->
  forall m, sets2 n out temp m (fold_left (fun m mu => F mu m) (seq 0 4) m) (sadd (m out) (fun x s c => csum 4 (fun mu => V mu m x s c))).
Proof.
  intros HF HV m. cbn [seq fold_left]. set (m1 := F 0%nat m). set (m2 := F 1%nat m1). set (m3 := F 2%nat m2).
  destruct (HF 0%nat m ltac:(lia)) as [A0 B0], (HF 1%nat m1 ltac:(lia)) as [A1 B1], (HF 2%nat m2 ltac:(lia)) as [A2 B2], (HF 3%nat m3 ltac:(lia)) as [A3 B3].
  fold m1 in A0, B0. fold m2 in A1, B1. fold m3 in A2, B2. split.
  - intros x Hx s Hs c Hc. rewrite (A3 x Hx s Hs c Hc). unfold sadd at 1. rewrite (A2 x Hx s Hs c Hc). unfold sadd at 1. rewrite (A1 x Hx s Hs c Hc). unfold sadd at 1. rewrite (A0 x Hx s Hs c Hc). unfold sadd.
    rewrite (HV 1%nat m1 m ltac:(lia)) by (try assumption; intros a y Ha Hb; apply B0; auto).
    rewrite (HV 2%nat m2 m ltac:(lia)) by (try assumption; intros a y Ha Hb; rewrite B1 by auto; apply B0; auto).
    rewrite (HV 3%nat m3 m ltac:(lia)) by (try assumption; intros a y Ha Hb; rewrite B2, B1 by auto; apply B0; auto).
    cbn [csum]. ring.
  - intros a x Hx. rewrite B3, B2, B1, B0 by assumption. reflexivity.
Qed.

Lemma iter_s {A} (f : A -> A) k c : Nat.iter k f (f c) = Nat.iter (S k) f c.
Proof. induction k as [|k IH]; [reflexivity|]. change (f (Nat.iter k f (f c)) = f (Nat.iter (S k) f c)). now rewrite IH. Qed.

Section S.
Variables (n : nat) (sched : nat -> list nat).
Hypothesis Hs : forall l, StagSpec.order n (sched l).
Variables (nup ndw : nat -> nat -> nat) (conf : nat -> nat -> su3).
Notation T := (transl nup conf).
Notation T' := (transl' ndw conf).

(** ** loops which put a value in each site *)
Lemma put_loop l out (v : smem -> sfield) :
  (forall m m' x, (x < n)%nat -> (forall a y, a <> out -> m a y = m' a y) -> m out x = m' out x -> forall s, (s < 4)%nat -> veq (v m x s) (v m' x s)) ->
  sets_obj n (PARs (sched l) (fun X m => wr out X (v m X) m)) out v.
Proof.
  intros H. apply (pars n (sched l) (fun X m => wr out X (v m X) m) out (fun X m => v m X) (Hs l)).
  - intros X. apply (frame1_wr out X (fun m => v m X)).
  - intros X HX m s _ i _. rewrite wr_same. reflexivity.
  - intros X HX m m' H1 H2. apply H; assumption.
Qed.
Lemma reset_ok l out : sets_obj n (field_reset sched l out) out (fun _ => szero).
Proof. apply (put_loop l out (fun _ => szero)). intros. intros i _. reflexivity. Qed.
Lemma assign_ok l out inp : sets_obj n (field_assign sched l out inp) out (fun m => m inp).
Proof.
  apply (put_loop l out (fun m => m inp)). intros m m' x Hx H1 H2 s _ i _. destruct (Nat.eq_dec inp out) as [->|E]; [rewrite H2; reflexivity|]. rewrite (H1 inp x E). reflexivity.
Qed.
Lemma summassign_ok l out inp : sets_obj n (field_summassign sched l out inp) out (fun m => sadd (m out) (m inp)).
Proof.
  apply (put_loop l out (fun m => sadd (m out) (m inp))). intros m m' x Hx H1 H2 s _ i _. unfold sadd. rewrite H2. destruct (Nat.eq_dec inp out) as [->|E]; [rewrite H2; reflexivity|]. rewrite (H1 inp x E). reflexivity.
Qed.
Lemma prodassign_ok l out r : sets_obj n (field_prodassign sched l out r) out (fun m => sscale (RtoC r) (m out)).
Proof.
  assert (E : sets_obj n (field_prodassign sched l out r) out (fun m x s c => m out x s c * r)).
  { apply (put_loop l out (fun m x s c => m out x s c * r)). intros m m' x Hx H1 H2 s _ i _. rewrite H2. reflexivity. }
  intros m. destruct (E m) as [E1 E2]. split; [|exact E2]. intros x Hx s Hs0 c Hc. rewrite (E1 x Hx s Hs0 c Hc). unfold sscale. ring.
Qed.

(** ** shifts *)
Lemma bw_ok l out mu inp rst : out <> inp ->
  sets_obj n (cshift_bw sched nup conf l out mu inp rst) out (fun m => if rst then T mu (m inp) else sadd (m out) (T mu (m inp))).
Proof.
  intros Hd. assert (E : sets_obj n (cshift_bw sched nup conf l out mu inp rst) out (fun m x => if rst then T mu (m inp) x else sadd (m out) (T mu (m inp)) x)).
  2: { intros m. destruct (E m) as [E1 E2]. split; [|exact E2]. intros x Hx s Hs0 c Hc. rewrite (E1 x Hx s Hs0 c Hc). destruct rst; reflexivity. }
  apply (pars n (sched l) _ out (fun X m => if rst then T mu (m inp) X else sadd (m out) (T mu (m inp)) X) (Hs l)).
  - intros X m a x Hx. destruct rst; unfold spincolor_put_to_zero; rewrite ?wr_other by exact Hx; reflexivity.
  - intros X HX m s Hs0 i Hi. rewrite wr_same. unfold su3_summ_the_prod_spincolor. rewrite summ_v. destruct rst; unfold spincolor_put_to_zero.
    + rewrite wr_same. rewrite (wr_other out X _ m inp) by (left; congruence). unfold transl. ring.
    + reflexivity.
  - intros X HX m m' H1 H2 s Hs0 i Hi. destruct rst; unfold sadd, transl; rewrite ?H2, (H1 inp (nup X mu)) by congruence; reflexivity.
Qed.
Lemma fw_ok l out mu inp rst : out <> inp ->
  sets_obj n (cshift_fw sched ndw conf l out mu inp rst) out (fun m => if rst then T' mu (m inp) else sadd (m out) (T' mu (m inp))).
Proof.
  intros Hd. assert (E : sets_obj n (cshift_fw sched ndw conf l out mu inp rst) out (fun m x => if rst then T' mu (m inp) x else sadd (m out) (T' mu (m inp)) x)).
  2: { intros m. destruct (E m) as [E1 E2]. split; [|exact E2]. intros x Hx s Hs0 c Hc. rewrite (E1 x Hx s Hs0 c Hc). destruct rst; reflexivity. }
  apply (pars n (sched l) _ out (fun X m => if rst then T' mu (m inp) X else sadd (m out) (T' mu (m inp)) X) (Hs l)).
  - intros X m a x Hx. destruct rst; unfold spincolor_put_to_zero; rewrite ?wr_other by exact Hx; reflexivity.
  - intros X HX m s Hs0 i Hi. rewrite wr_same. unfold su3_dag_summ_the_prod_spincolor. rewrite dsumm_v. destruct rst; unfold spincolor_put_to_zero.
    + rewrite wr_same. rewrite (wr_other out X _ m inp) by (left; congruence). unfold transl'. ring.
    + reflexivity.
  - intros X HX m m' H1 H2 s Hs0 i Hi. destruct rst; unfold sadd, transl'; rewrite ?H2, (H1 inp (ndw X mu)) by congruence; reflexivity.
Qed.
Lemma T_at mu f g x s c : (forall y, f y = g y) -> T mu f x s c = T mu g x s c.
Proof. intros H. unfold transl. rewrite H. reflexivity. Qed.
Lemma T'_at mu f g x s c : (forall y, f y = g y) -> T' mu f x s c = T' mu g x s c.
Proof. intros H. unfold transl'. rewrite H. reflexivity. Qed.
Lemma ndirs_sum (dirs : nat -> bool) (z : C) : csum 4 (fun mu => if dirs mu then z else RtoC 0) = INR (ndirs_of dirs) * z.
Proof.
  unfold ndirs_of. cbn [seq fold_left csum]. destruct (dirs 0%nat), (dirs 1%nat), (dirs 2%nat), (dirs 3%nat); cbn [INR]; apply injective_projections; cbn; ring.
Qed.
Lemma lapl_ok l out dirs inp : out <> inp ->
  sets_obj n (Laplace_operator sched nup ndw conf l out dirs inp) out (fun m => lapl nup ndw conf dirs (m inp)).
Proof.
  intros Hd m. assert (Hd' : inp <> out) by congruence. unfold Laplace_operator. cbv zeta. set (m0 := field_reset sched l out m). destruct (reset_ok l out m) as [R1 R2]. fold m0 in R1, R2.
  set (F := fun mu m => if dirs mu then cshift_fw sched ndw conf (l + 2 * mu + 2) out mu inp false (cshift_bw sched nup conf (l + 2 * mu + 1) out mu inp false m) else m).
  change (fold_left _ (seq 0 4) m0) with (fold_left (fun m mu => F mu m) (seq 0 4) m0).
  assert (A : sets2 n out out m0 (fold_left (fun m mu => F mu m) (seq 0 4) m0) (sadd (m0 out) (fun x s c => csum 4 (fun mu => (if dirs mu then sadd (T mu (m0 inp)) (T' mu (m0 inp)) else szero) x s c)))).
  { apply (acc n out out F (fun mu m => if dirs mu then sadd (T mu (m inp)) (T' mu (m inp)) else szero)).
    - clear - Hs Hd. intros mu m Hmu. unfold F. destruct (dirs mu).
      + destruct (bw_ok (l + 2 * mu + 1) out mu inp false Hd m) as [B1 B2]. set (m1 := cshift_bw _ _ _ _ _ _ _ _ m) in *.
        destruct (fw_ok (l + 2 * mu + 2) out mu inp false Hd m1) as [C1 C2]. split.
        * intros x Hx s Hs0 c Hc. rewrite (C1 x Hx s Hs0 c Hc). unfold sadd at 1. rewrite (B1 x Hx s Hs0 c Hc). unfold sadd. rewrite (T'_at mu (m1 inp) (m inp)); [ring|]. intros y. apply B2. left. congruence.
        * intros a x Hx. rewrite C2, B2 by tauto. reflexivity.
      + split; [|reflexivity]. intros x Hx s Hs0 c Hc. unfold sadd, szero. ring.
    - clear - Hd. intros mu m m' Hmu H x Hx s Hs0 c Hc. destruct (dirs mu); [|reflexivity]. unfold sadd. rewrite (T_at mu (m inp) (m' inp)), (T'_at mu (m inp) (m' inp)); [reflexivity| |]; intros y; apply H; congruence. }
  destruct A as [A1 A2]. set (m1 := fold_left (fun m mu => F mu m) (seq 0 4) m0) in *.
  destruct (put_loop (l + 9) out (fun m x id ic => m out x id ic - 2%R * INR (ndirs_of dirs) * m inp x id ic)) with (m := m1) as [P1 P2].
  { intros k k' x Hx H1 H2 s _ i _. rewrite H2, (H1 inp x) by congruence. reflexivity. }
  split.
  - intros x Hx s Hs0 c Hc. rewrite (P1 x Hx s Hs0 c Hc). rewrite (A1 x Hx s Hs0 c Hc). unfold sadd at 1. rewrite (R1 x Hx s Hs0 c Hc). unfold szero at 1.
    assert (E : forall y, m1 inp y = m inp y) by (intros y; rewrite A2, R2 by tauto; reflexivity). rewrite E. unfold lapl, sum_dirs.
    assert (E0 : forall y, m0 inp y = m inp y) by (intros y; apply R2; left; congruence).
    replace (2%R * INR (ndirs_of dirs) * m inp x s c) with (INR (ndirs_of dirs) * (2%R * m inp x s c)) by ring. rewrite <- (ndirs_sum dirs).
    cbn [csum]. unfold sadd, ssub, sscale, szero.
    repeat match goal with |- context [T ?mu (m0 inp) x s c] => rewrite (T_at mu (m0 inp) (m inp) x s c E0) end.
    repeat match goal with |- context [T' ?mu (m0 inp) x s c] => rewrite (T'_at mu (m0 inp) (m inp) x s c E0) end.
    destruct (dirs 0%nat), (dirs 1%nat), (dirs 2%nat), (dirs 3%nat); unfold sadd;
    repeat match goal with |- context [T ?mu (m0 inp) x s c] => rewrite (T_at mu (m0 inp) (m inp) x s c E0) end;
    repeat match goal with |- context [T' ?mu (m0 inp) x s c] => rewrite (T'_at mu (m0 inp) (m inp) x s c E0) end; rewrite ?RtoC_m1; ring.
  - intros a x Hx. rewrite P2, A2, R2 by tauto. reflexivity.
Qed.

Hypothesis HL : lattice_lx n nup ndw.
Lemma T_ext mu f g : (mu < 4)%nat -> f =[n]= g -> T mu f =[n]= T mu g.
Proof. intros Hmu H x Hx s Hs0 c Hc. unfold transl. destruct (HL x mu Hx Hmu) as (Hu & _). unfold mvec. cbn [csum]. rewrite !(H (nup x mu) Hu s Hs0) by lia. reflexivity. Qed.
Lemma T'_ext mu f g : (mu < 4)%nat -> f =[n]= g -> T' mu f =[n]= T' mu g.
Proof. intros Hmu H x Hx s Hs0 c Hc. unfold transl'. destruct (HL x mu Hx Hmu) as (_ & Hu & _). unfold mvec. cbn [csum]. rewrite !(H (ndw x mu) Hu s Hs0) by lia. reflexivity. Qed.
Lemma eq_at (f g : sfield) : (forall y, f y = g y) -> f =[n]= g.
Proof. intros H x Hx s Hs0 c Hc. rewrite H. reflexivity. Qed.
Lemma lapl2_ok l out temp dirs inp m : out <> inp -> temp <> inp -> out <> temp ->
  sets2 n out temp m (Laplace_operator_2_links sched nup ndw conf l out temp dirs inp m) (lapl2 nup ndw conf dirs (m inp)).
Proof.
  intros Hd Ht Hot. assert (Hd' : inp <> out) by congruence. assert (Ht' : inp <> temp) by congruence. assert (Hot' : temp <> out) by congruence.
  unfold Laplace_operator_2_links. cbv zeta. set (m0 := field_reset sched l out m). destruct (reset_ok l out m) as [R1 R2]. fold m0 in R1, R2.
  set (F := fun mu m => if dirs mu then cshift_fw sched ndw conf (l + 4 * mu + 4) out mu temp false (cshift_fw sched ndw conf (l + 4 * mu + 3) temp mu inp true
     (cshift_bw sched nup conf (l + 4 * mu + 2) out mu temp false (cshift_bw sched nup conf (l + 4 * mu + 1) temp mu inp true m))) else m).
  change (fold_left _ (seq 0 4) m0) with (fold_left (fun m mu => F mu m) (seq 0 4) m0).
  assert (A : sets2 n out temp m0 (fold_left (fun m mu => F mu m) (seq 0 4) m0) (sadd (m0 out) (fun x s c => csum 4 (fun mu => (if dirs mu then sadd (T mu (T mu (m0 inp))) (T' mu (T' mu (m0 inp))) else szero) x s c)))).
  { apply (acc n out temp F (fun mu m => if dirs mu then sadd (T mu (T mu (m inp))) (T' mu (T' mu (m inp))) else szero)).
    - clear - Hs Hd Ht Hot Hd' Ht' Hot' HL. intros mu m Hmu. unfold F. destruct (dirs mu).
      + destruct (bw_ok (l + 4 * mu + 1) temp mu inp true Ht m) as [B1 B2]. set (m1 := cshift_bw sched nup conf (l + 4 * mu + 1) temp mu inp true m) in *.
        destruct (bw_ok (l + 4 * mu + 2) out mu temp false Hot m1) as [C1 C2]. set (m2 := cshift_bw sched nup conf (l + 4 * mu + 2) out mu temp false m1) in *.
        destruct (fw_ok (l + 4 * mu + 3) temp mu inp true Ht m2) as [D1 D2]. set (m3 := cshift_fw sched ndw conf (l + 4 * mu + 3) temp mu inp true m2) in *.
        destruct (fw_ok (l + 4 * mu + 4) out mu temp false Hot m3) as [E1 E2]. split.
        * intros x Hx s Hs0 c Hc. rewrite (E1 x Hx s Hs0 c Hc). unfold sadd at 1. rewrite (D2 out x) by tauto. rewrite (C1 x Hx s Hs0 c Hc). unfold sadd at 1. rewrite (B2 out x) by tauto.
          rewrite (T'_ext mu _ _ Hmu D1 x Hx s Hs0 c Hc), (T_ext mu _ _ Hmu B1 x Hx s Hs0 c Hc). unfold sadd.
          assert (Ei : m2 inp =[n]= m inp) by (apply eq_at; intros y; rewrite C2, B2 by tauto; reflexivity).
          rewrite (T'_ext mu _ _ Hmu (T'_ext mu _ _ Hmu Ei) x Hx s Hs0 c Hc). ring.
        * intros a x Hx. rewrite E2, D2, C2, B2 by tauto. reflexivity.
      + split; [|reflexivity]. intros x Hx s Hs0 c Hc. unfold sadd, szero. ring.
    - clear - Hd' Ht' HL. intros mu m m' Hmu H. destruct (dirs mu); [|apply seq_refl].
      assert (E : m inp =[n]= m' inp) by (apply eq_at; intros y; apply H; assumption).
      rewrite (T_ext mu _ _ Hmu (T_ext mu _ _ Hmu E)), (T'_ext mu _ _ Hmu (T'_ext mu _ _ Hmu E)). reflexivity. }
  destruct A as [A1 A2]. set (m1 := fold_left (fun m mu => F mu m) (seq 0 4) m0) in *.
  destruct (put_loop (l + 17) out (fun m x id ic => m out x id ic * 0.25%R - INR (ndirs_of dirs) * m inp x id ic / 2%R)) with (m := m1) as [P1 P2].
  { intros k k' x Hx H1 H2 s _ i _. rewrite H2, (H1 inp x Hd'). reflexivity. }
  split.
  - intros x Hx s Hs0 c Hc. rewrite (P1 x Hx s Hs0 c Hc). rewrite (A1 x Hx s Hs0 c Hc). unfold sadd at 1. rewrite (R1 x Hx s Hs0 c Hc). unfold szero at 1.
    assert (E : forall y, m1 inp y = m inp y) by (intros y; rewrite A2, R2 by tauto; reflexivity). rewrite E. unfold lapl2, sum_dirs.
    assert (E0 : m0 inp =[n]= m inp) by (apply eq_at; intros y; apply R2; tauto).
    assert (QT : forall mu, (mu < 4)%nat -> T mu (T mu (m0 inp)) x s c = T mu (T mu (m inp)) x s c) by (intros mu Hmu; apply (T_ext mu _ _ Hmu (T_ext mu _ _ Hmu E0)); assumption).
    assert (QT' : forall mu, (mu < 4)%nat -> T' mu (T' mu (m0 inp)) x s c = T' mu (T' mu (m inp)) x s c) by (intros mu Hmu; apply (T'_ext mu _ _ Hmu (T'_ext mu _ _ Hmu E0)); assumption).
    replace (INR (ndirs_of dirs) * m inp x s c / 2%R) with (INR (ndirs_of dirs) * (m inp x s c / 2%R)) by (unfold Cdiv; ring). rewrite <- (ndirs_sum dirs).
    transitivity (csum 4 (fun mu => (if dirs mu then sadd (T mu (T mu (m0 inp))) (T' mu (T' mu (m0 inp))) else szero) x s c * 0.25%R - (if dirs mu then m inp x s c / 2%R else RtoC 0))).
    { cbn [csum]. ring. }
    apply csum_ext. intros mu Hmu. destruct (dirs mu); unfold sscale, ssub, sadd, szero; [|ring]. rewrite (QT mu Hmu), (QT' mu Hmu). unfold sscale.
    generalize (T mu (T mu (m inp)) x s c), (T' mu (T' mu (m inp)) x s c), (m inp x s c). intros u v w. replace 0.25%R with (1 / 4)%R by lra. unfold Cdiv. rewrite <- RtoC_inv by lra. destruct u, v, w. apply injective_projections; cbn; lra.
  - intros a x Hx. rewrite P2, A2, R2 by tauto. reflexivity.
Qed.

(** ** symmetric derivative *)
Lemma nabla_ok time l out temp inp mu t m : (mu < 4)%nat -> temp <> inp ->
  sets2 n out temp m (apply_nabla_i sched nup ndw conf time l out temp inp mu t m)
    (fun x => if ((t =? -1)%Z || (time x =? t)%Z)%bool then ssub (T mu (m inp)) (T' mu (m inp)) x else fun _ _ => RtoC 0).
Proof.
  intros Hmu Ht. assert (Ht' : inp <> temp) by congruence. unfold apply_nabla_i. cbv zeta. set (m0 := field_reset sched l temp m). destruct (reset_ok l temp m) as [R1 R2]. fold m0 in R1, R2.
  set (body := fun X m => if ((t =? -1)%Z || (time X =? t)%Z)%bool then
      wr temp X (su3_dag_subt_the_prod_spincolor (wr temp X (unsafe_su3_prod_spincolor (conf X mu) (m inp (nup X mu))) m temp X) (conf (ndw X mu) mu) (wr temp X (unsafe_su3_prod_spincolor (conf X mu) (m inp (nup X mu))) m inp (ndw X mu)))
        (wr temp X (unsafe_su3_prod_spincolor (conf X mu) (m inp (nup X mu))) m) else m).
  change (PARs (sched (l + 1)%nat) _ m0) with (PARs (sched (l + 1)%nat) body m0).
  assert (A : sets_obj n (PARs (sched (l + 1)%nat) body) temp (fun m X => if ((t =? -1)%Z || (time X =? t)%Z)%bool then ssub (T mu (m inp)) (T' mu (m inp)) X else m temp X)).
  { apply (pars n (sched (l + 1)%nat) body temp (fun X m => if ((t =? -1)%Z || (time X =? t)%Z)%bool then ssub (T mu (m inp)) (T' mu (m inp)) X else m temp X) (Hs _)).
    - intros X k a x Hx. unfold body. destruct (_ || _)%bool; [|reflexivity]. rewrite !wr_other by exact Hx. reflexivity.
    - intros X HX k s Hs0 i Hi. unfold body. destruct (_ || _)%bool; [|reflexivity]. rewrite !wr_same. unfold su3_dag_subt_the_prod_spincolor. rewrite dsubt_v. rewrite (wr_other temp X _ k inp) by tauto.
      unfold unsafe_su3_prod_spincolor. rewrite mulv_v. unfold ssub, sadd, sscale, transl, transl'. rewrite RtoC_m1. ring.
    - intros X HX k k' H1 H2 s Hs0 i Hi. destruct (_ || _)%bool; [|rewrite H2; reflexivity]. unfold ssub, sadd, sscale, transl, transl'. rewrite !(H1 inp) by tauto. reflexivity. }
  destruct (A m0) as [A1 A2]. set (m1 := PARs (sched (l + 1)%nat) body m0) in *. destruct (assign_ok (l + 2) out temp m1) as [P1 P2]. split.
  - intros x Hx s Hs0 c Hc. rewrite (P1 x Hx s Hs0 c Hc), (A1 x Hx s Hs0 c Hc). destruct (_ || _)%bool; [|rewrite (R1 x Hx s Hs0 c Hc); reflexivity].
    unfold ssub, sadd, sscale, transl, transl'. rewrite !(R2 inp) by tauto. reflexivity.
  - intros a x Hx. rewrite P2, A2, R2 by tauto. reflexivity.
Qed.

(** ** gaussian smearing *)
Lemma kappaH_ok l H kappa inp : H <> inp ->
  sets_obj n (gaussian_smearing_apply_kappa_H sched nup ndw conf l H kappa inp) H
    (fun m => sum_dirs (fun mu => negb (Nat.eqb mu 0)) (fun mu => sscale (RtoC (kappa mu)) (sadd (T mu (m inp)) (T' mu (m inp))))).
Proof.
  intros Hd m. assert (Hd' : inp <> H) by congruence. unfold gaussian_smearing_apply_kappa_H. cbv zeta. set (m0 := field_reset sched l H m). destruct (reset_ok l H m) as [R1 R2]. fold m0 in R1, R2.
  set (body := fun (X : nat) (m : smem) => fold_left (fun m mu => wr H X (spincolor_summ_the_prod_double (m H X) (su3_dag_summ_the_prod_spincolor (unsafe_su3_prod_spincolor (conf X mu) (m inp (nup X mu))) (conf (ndw X mu) mu) (m inp (ndw X mu))) (kappa mu)) m) (seq 1 3) m).
  change (PARs (sched (l + 1)%nat) _ m0) with (PARs (sched (l + 1)%nat) body m0).
  set (val := fun (X : nat) (m : smem) => fun s c => m H X s c + RtoC (kappa 1%nat) * (T 1%nat (m inp) X s c + T' 1%nat (m inp) X s c) + RtoC (kappa 2%nat) * (T 2%nat (m inp) X s c + T' 2%nat (m inp) X s c) + RtoC (kappa 3%nat) * (T 3%nat (m inp) X s c + T' 3%nat (m inp) X s c)).
  assert (A : sets_obj n (PARs (sched (l + 1)%nat) body) H (fun m X => val X m)).
  { apply (pars n (sched (l + 1)%nat) body H val (Hs _)).
    - intros X k a x Hx. unfold body. cbn [seq fold_left]. rewrite !wr_other by exact Hx. reflexivity.
    - intros X HX k s Hs0 i Hi. unfold body. cbn [seq fold_left]. rewrite !wr_same. rewrite !(wr_other H X _ _ inp) by tauto.
      unfold spincolor_summ_the_prod_double, su3_dag_summ_the_prod_spincolor. rewrite ?wr_same, !dsumm_v. unfold unsafe_su3_prod_spincolor. rewrite !mulv_v. unfold val, transl, transl'. ring.
    - intros X HX k k' H1 H2 s Hs0 i Hi. unfold val. rewrite H2. unfold transl, transl'. rewrite !(H1 inp) by tauto. reflexivity. }
  destruct (A m0) as [A1 A2]. split.
  - intros x Hx s Hs0 c Hc. rewrite (A1 x Hx s Hs0 c Hc). unfold val. rewrite (R1 x Hx s Hs0 c Hc). unfold szero, sum_dirs. cbn [csum negb Nat.eqb]. unfold sscale, sadd, transl, transl'. rewrite !(R2 inp) by tauto. ring.
  - intros a x Hx. rewrite A2, R2 by tauto. reflexivity.
Qed.
Lemma sum_dirs_ext dirs F G : (forall mu, (mu < 4)%nat -> F mu =[n]= G mu) -> sum_dirs dirs F =[n]= sum_dirs dirs G.
Proof. intros H x Hx s Hs0 c Hc. unfold sum_dirs. apply csum_ext. intros mu Hmu. destruct (dirs mu); [|reflexivity]. apply H; assumption. Qed.
Lemma smear1_ext kappa f g : f =[n]= g -> smear1 nup ndw conf kappa f =[n]= smear1 nup ndw conf kappa g.
Proof.
  intros H. unfold smear1. rewrite (sum_dirs_ext (fun mu => negb (Nat.eqb mu 0)) (fun mu => sscale (RtoC (kappa mu)) (sadd (T mu f) (T' mu f))) (fun mu => sscale (RtoC (kappa mu)) (sadd (T mu g) (T' mu g)))).
  - rewrite H. reflexivity.
  - intros mu Hmu. rewrite (T_ext mu _ _ Hmu H), (T'_ext mu _ _ Hmu H). reflexivity.
Qed.
Lemma iteration_ok l temp H kappa m : H <> temp ->
  sets2 n temp H m (gaussian_iteration sched nup ndw conf l temp H kappa (1 / (1 + 2 * (kappa 1%nat + kappa 2%nat + kappa 3%nat))) m) (smear1 nup ndw conf kappa (m temp)).
Proof.
  intros Hd. assert (Hd' : temp <> H) by congruence. unfold gaussian_iteration. cbv zeta. destruct (kappaH_ok l H kappa temp Hd m) as [A1 A2]. set (m1 := gaussian_smearing_apply_kappa_H _ _ _ _ _ _ _ _ m) in *.
  destruct (summassign_ok (l + 2) temp H m1) as [B1 B2]. set (m2 := field_summassign _ _ _ _ m1) in *.
  match goal with |- context [field_prodassign sched (l + 3) temp ?r m2] => destruct (prodassign_ok (l + 3) temp r m2) as [P1 P2] end. split.
  - intros x Hx s Hs0 c Hc. rewrite (P1 x Hx s Hs0 c Hc). unfold smear1. unfold sscale at 1 2. rewrite (B1 x Hx s Hs0 c Hc). unfold sadd at 1 2. rewrite (A1 x Hx s Hs0 c Hc), (A2 temp x) by tauto.
    unfold Rdiv. rewrite Rmult_1_l. reflexivity.
  - intros a x Hx. rewrite P2, B2, A2 by tauto. reflexivity.
Qed.
Lemma iter_ext k kappa f g : f =[n]= g -> Nat.iter k (smear1 nup ndw conf kappa) f =[n]= Nat.iter k (smear1 nup ndw conf kappa) g.
Proof. intros H. induction k as [|k IH]; [exact H|]. change (smear1 nup ndw conf kappa (Nat.iter k (smear1 nup ndw conf kappa) f) =[n]= smear1 nup ndw conf kappa (Nat.iter k (smear1 nup ndw conf kappa) g)). apply smear1_ext, IH. Qed.
Lemma iterations_ok temp H kappa L : H <> temp -> forall k s0 m,
  sets2 n temp H m (fold_left (fun m iter => gaussian_iteration sched nup ndw conf (L iter) temp H kappa (1 / (1 + 2 * (kappa 1%nat + kappa 2%nat + kappa 3%nat))) m) (seq s0 k) m) (Nat.iter k (smear1 nup ndw conf kappa) (m temp)).
Proof.
  intros Hd. induction k as [|k IH]; intros s0 m; cbn [seq fold_left].
  - split; [apply seq_refl|reflexivity].
  - destruct (iteration_ok (L s0) temp H kappa m Hd) as [A1 A2]. set (m1 := gaussian_iteration _ _ _ _ _ _ _ _ _ m) in *. destruct (IH (S s0) m1) as [B1 B2]. split.
    + rewrite B1. rewrite (iter_ext k kappa _ _ A1). rewrite iter_s. reflexivity.
    + intros a x Hx. rewrite B2, A2 by tauto. reflexivity.
Qed.
(** the field smeared, and what is left: nothing else than the two fields of service changes *)
Lemma gaussian_ok l smear orig temp H kappa niter m : NoDup [smear; temp; H] -> NoDup [orig; temp; H] ->
  let m' := gaussian_smearing sched nup ndw conf l smear orig temp H kappa niter m in
  m' smear =[n]= Nat.iter (Z.to_nat niter) (smear1 nup ndw conf kappa) (m orig) /\
  (forall a x, (a <> smear /\ a <> temp /\ a <> H) \/ (n <= x)%nat -> m' a x = m a x).
Proof.
  intros N1 N2 m'. assert (D : smear <> temp /\ smear <> H /\ temp <> H) by (inversion_clear N1 as [|? ? I1 N1']; inversion_clear N1' as [|? ? I2 N1'']; cbn in *; intuition congruence).
  assert (D2 : orig <> temp /\ orig <> H) by (inversion_clear N2 as [|? ? I1 N2']; cbn in *; intuition congruence).
  destruct D as (D1 & D3 & D4), D2 as (D5 & D6). unfold m', gaussian_smearing. destruct (Z.ltb_spec niter 1) as [L|L].
  - replace (Z.to_nat niter) with 0%nat by lia. cbn [Nat.iter nat_rect]. destruct (Nat.eqb_spec smear orig) as [->|E]; cbn [negb].
    + split; [apply seq_refl|reflexivity].
    + destruct (assign_ok l smear orig m) as [A1 A2]. split; [exact A1|]. intros a x Hx. apply A2. tauto.
  - cbv zeta. destruct (assign_ok l temp orig m) as [A1 A2]. set (m0 := field_assign sched l temp orig m) in *.
    destruct (iterations_ok temp H kappa (fun iter => (l + 2 + 4 * iter)%nat) ltac:(congruence) (Z.to_nat niter) 0%nat m0) as [B1 B2]. set (m1 := fold_left _ _ m0) in *.
    destruct (assign_ok (l + 1) smear temp m1) as [C1 C2]. split.
    + rewrite C1, B1. apply iter_ext. exact A1.
    + intros a x Hx. rewrite C2, B2, A2 by tauto. reflexivity.
Qed.
End S.
