From Coq Require Import Reals Lra Lia List ZArith FunctionalExtensionality.
From Coquelicot Require Import Complex.
From Verif Require Import CplxModel CplxSpec CplxProofs CplxStores MatModel MatSpec MatProofs DiracModel DiracSpec SpinModel SpinSpec SpinProofs SpinProofs2 StagModel FreeTmModel FreeTmSpec FreeTmProofs GluonModel GluonSpec GluonProofs.
Import ListNotations.
Open Scope R_scope.
Set Bullet Behavior "Strict Subproofs".

Lemma nonzero_kept gl x : isNonZeroMode gl x = true <-> kept (zms gl) x.
Proof.
  unfold isNonZeroMode, kept. destruct (zms gl).
  - rewrite Bool.negb_true_iff, <- Bool.not_true_iff_false, !Bool.andb_true_iff, !Z.eqb_eq. split.
    + intros H. destruct (Z.eq_dec (x 0%nat) 0); [|exists 0%nat; split; [lia|assumption]]. destruct (Z.eq_dec (x 1%nat) 0); [|exists 1%nat; split; [lia|assumption]]. destruct (Z.eq_dec (x 2%nat) 0); [|exists 2%nat; split; [lia|assumption]].
      exists 3%nat. split; [lia|tauto].
    + intros (mu & Hm & H). intros [[[H0 H1] H2] H3]. destruct mu as [|[|[|[|mu]]]]; [tauto|tauto|tauto|tauto|lia].
  - rewrite Bool.negb_true_iff, <- Bool.not_true_iff_false, !Bool.andb_true_iff, !Z.eqb_eq. split.
    + intros H. destruct (Z.eq_dec (x 1%nat) 0); [|exists 1%nat; split; [lia|assumption]]. destruct (Z.eq_dec (x 2%nat) 0); [|exists 2%nat; split; [lia|assumption]]. exists 3%nat. split; [lia|tauto].
    + intros (mu & Hm & H). intros [[H1 H2] H3]. destruct mu as [|[|[|[|mu]]]]; [lia|tauto|tauto|tauto|lia].
  - apply Z.eqb_eq.
Qed.
Lemma kept_dec z x : {kept z x} + {~ kept z x}.
Proof.
  set (gl := {| zms := z; c1 := 0; which_gauge := FEYNMAN; gbc := fun _ => 0 |}). destruct (isNonZeroMode gl x) eqn:E.
  - left. now apply (nonzero_kept gl x).
  - right. intros K. apply (nonzero_kept gl x) in K. congruence.
Qed.

Lemma set_re_upd p v m : set_re p v m = upd m p (v, im m p).
Proof. reflexivity. Qed.
Lemma prodassign_bool_upd p b m : prodassign_bool p b m = upd m p (b2R b * m p)%C.
Proof.
  unfold prodassign_bool, set_im, set_re, im, re. rewrite !upd_same, upd_upd. f_equal. cbn [fst snd]. destruct (m p) as [u v]. unfold b2R. destruct b; apply injective_projections; cbn; ring.
Qed.
Lemma elem p a (f : nat -> R) (b : bool) d m :
  (set_re p a;; unroll_for 0 4 (fun si m => set_re p (re m p + f si) m);; (if b then set_re p 0 else fun m => set_re p (re m p / d) m);; set_im p 0) m =
  upd m p (RtoC (if b then 0 else (a + f 0%nat + f 1%nat + f 2%nat + f 3%nat) / d)).
Proof.
  rewrite !then_run. unfold unroll_for. cbn [seq fold_left Nat.sub]. destruct b; unfold set_re, set_im, re, im; repeat rewrite ?upd_same, ?upd_upd; reflexivity.
Qed.
Lemma cancel_prop_ok prop gl x m : let m' := cancel_if_zero_mode_spin1prop prop gl x m in deq (ss m' prop) (dscale (b2R (isNonZeroMode gl x)) (ss m prop)) /\ forall q, ~ in_ss prop q -> m' q = m q.
Proof.
  pose proof (ss_loop (fun mu nu => prodassign_bool prop@[mu]@[nu] (isNonZeroMode gl x)) prop (fun m => dscale (b2R (isNonZeroMode gl x)) (ss m prop))) as H.
  destruct H with (m := m) as [A B].
  - intros i j _ _ m0 p. rewrite prodassign_bool_upd. reflexivity.
  - intros i j i' j' m0 v _ _ _ _ N. unfold dscale, ss. rewrite upd_other; [reflexivity|]. unfold at_. congruence.
  - split; [exact A|]. intros q Q. apply B; tauto.
Qed.

Section P.
Context (L : nat -> Z) (V : Z).
Definition tol14 := / 10 ^ 14.
(** what the propagator is *)
Definition Pval (gl : gauge_info) (x : nat -> Z) (mu nu : nat) : R :=
  let h := khat (mom L (gbc gl) x) in
  if isNonZeroMode gl x then
    match which_gauge gl with
    | COULOMB => if above (Rabs (hs h)) tol14 then Pk h mu nu / IZR V else 0
    | g => if below (Rabs (s2 h)) tol14 then 0 else (match g with FEYNMAN => 1 | _ => 0 end * h mu * h nu + Tw (c1 gl) h mu nu) / (s2 h * s2 h * IZR V)
    end
  else 0.
Lemma po_eq h mu nu : fold_left (fun p rho => if (negb (Nat.eqb mu rho) && negb (Nat.eqb nu rho))%bool then p * (h rho * h rho) else p) (seq 0 4) 1 = po h mu nu.
Proof. unfold po, oth. cbn [seq fold_left fold_right]. repeat match goal with |- context[if ?b then _ else _] => destruct b end; ring. Qed.
Lemma so_eq h mu nu : fold_left (fun p rho => if (negb (Nat.eqb mu rho) && negb (Nat.eqb nu rho))%bool then p + h rho * h rho else p) (seq 0 4) 0 = so h mu nu.
Proof. unfold so, oth. cbn [seq fold_left fold_right]. repeat match goal with |- context[if ?b then _ else _] => destruct b end; ring. Qed.
Lemma covariant_val (c1 alpha : R) h mu nu :
    let kt2_dir := fun mu => h mu * h mu in
    let kt4_dir := fun mu => kt2_dir mu * kt2_dir mu in
    let kt6_dir := fun mu => kt4_dir mu * kt2_dir mu in
    let sum := fun f : nat -> R => fold_left (fun s mu => s + f mu) (seq 0 4) 0 in
    let kt2 := sum kt2_dir in
    let kt4 := sum kt4_dir in
    let kt6 := sum kt6_dir in
    let c12 := c1 * c1 in
    let c13 := c12 * c1 in
    let ktpo2 := fun mu nu => fold_left (fun p rho => if (negb (Nat.eqb mu rho) && negb (Nat.eqb nu rho))%bool then p * kt2_dir rho else p) (seq 0 4) 1 in
    let ktso2 := fun mu nu => fold_left (fun s rho => if (negb (Nat.eqb mu rho) && negb (Nat.eqb nu rho))%bool then s + kt2_dir rho else s) (seq 0 4) 0 in
    let kt22 := kt2 * kt2 in
    let kt23 := kt2 * kt2 * kt2 in
    let kt42 := kt4 * kt4 in
    let Deltakt := fold_left (fun D rho => D - 4 * c13 * kt4_dir rho * ktpo2 rho rho) (seq 0 4)
            ((kt2 - c1 * kt4) * (kt2 - c1 * (kt22 + kt4) + / 2 * c12 * (kt23 + 2 * kt6 - kt2 * kt4))) in
    let A := fun mu nu => (1 - kron_delta mu nu) / Deltakt *
            (kt22 - c1 * kt2 * (2 * kt4 + kt2 * ktso2 mu nu) + c12 * (kt42 + kt2 * kt4 * ktso2 mu nu + kt22 * ktpo2 mu nu)) in
    let f := fun si => (h si * kron_delta mu nu - h nu * kron_delta mu si) * h si * A si nu in
    kt2 = s2 h /\ alpha * h mu * h nu + f 0%nat + f 1%nat + f 2%nat + f 3%nat = alpha * h mu * h nu + Tw c1 h mu nu.
Proof.
  intros kt2_dir kt4_dir kt6_dir sum kt2 kt4 kt6 c12 c13 ktpo2 ktso2 kt22 kt23 kt42 Deltakt A f.
  assert (E2 : kt2 = s2 h) by (unfold kt2, sum, kt2_dir, s2, rsum; cbn [seq fold_left fold_right]; ring).
  assert (E4 : kt4 = s4 h) by (unfold kt4, sum, kt4_dir, kt2_dir, s4, rsum; cbn [seq fold_left fold_right]; ring).
  assert (E6 : kt6 = s6 h) by (unfold kt6, sum, kt6_dir, kt4_dir, kt2_dir, s6, rsum; cbn [seq fold_left fold_right]; ring).
  assert (EP : ktpo2 = po h) by (apply functional_extensionality; intros a; apply functional_extensionality; intros b; apply po_eq).
  assert (ES : ktso2 = so h) by (apply functional_extensionality; intros a; apply functional_extensionality; intros b; apply so_eq).
  assert (ED : Deltakt = Dl c1 h).
  { unfold Deltakt, Dl, rsum. cbn [seq fold_left fold_right]. unfold kt22, kt23, kt4_dir, kt2_dir, c13, c12. rewrite EP, E2, E4, E6. ring. }
  split; [exact E2|]. unfold f, A, Tw, Aw, An, rsum. cbn [seq fold_right]. rewrite ED. unfold kt22, kt42, c12. rewrite EP, ES, E2, E4. change kron_delta with dlt. ring.
Qed.

Lemma propagator_run prop gl x : (which_gauge gl = COULOMB -> c1 gl = 0 \/ ~ kept (zms gl) x) ->
  exists f, mom_space_tlSym_gauge_propagator_of_imom L V prop gl x = Some f /\ sets_ss f prop (fun _ mu nu => RtoC (Pval gl x mu nu)).
Proof.
  intros HC. cbv delta [mom_space_tlSym_gauge_propagator_of_imom Pval] beta. destruct (isNonZeroMode gl x) eqn:Z; [change (negb true) with false|change (negb false) with true]; cbv iota.
  2: { eexists. split; [reflexivity|]. intros m. apply spinspin_put_to_zero_ok. }
  match goal with |- context[let kt := ?K in _] => set (kt0 := K) end.
  assert (Ekt : kt0 = khat (mom L (gbc gl) x)).
  { apply functional_extensionality. intros mu. unfold kt0, khat. now rewrite mom_eq. }
  clearbody kt0. subst kt0. set (h := khat (mom L (gbc gl) x)). clearbody h. cbv zeta.
  assert (Fin : forall (o : mem -> mem) (X : nat -> nat -> R), (forall m, deq (ss (o m) prop) (fun mu nu => RtoC (X mu nu)) /\ forall q, ~ in_ss prop q -> o m q = m q) ->
    sets_ss (o;; cancel_if_zero_mode_spin1prop prop gl x) prop (fun _ mu nu => RtoC (X mu nu))).
  { intros o X H m. rewrite then_run. destruct (H m) as [A B]. destruct (cancel_prop_ok prop gl x (o m)) as [C D]. split.
    - intros i j Hi Hj. rewrite C by assumption. rewrite Z. unfold dscale, b2R. rewrite A by assumption. ring.
    - intros q Q _. rewrite D by assumption. now apply B. }
  assert (Cov : forall alpha, sets_ss (unroll_for 0 4 (fun mu => unroll_for 0 4 (fun nu =>
            let p := prop@[mu]@[nu] in
            set_re p (alpha * h mu * h nu);;
            unroll_for 0 4 (fun si m => set_re p (re m p + (h si * kron_delta mu nu - h nu * kron_delta mu si) * h si *
     ((1 - kron_delta si nu) / fold_left (fun D rho => D - 4 * (c1 gl * c1 gl * c1 gl) * (h rho * h rho * (h rho * h rho)) * fold_left (fun p rho0 => if (negb (Nat.eqb rho rho0) && negb (Nat.eqb rho rho0))%bool then p * (h rho0 * h rho0) else p) (seq 0 4) 1) (seq 0 4)
            ((fold_left (fun s mu => s + h mu * h mu) (seq 0 4) 0 - c1 gl * fold_left (fun s mu => s + h mu * h mu * (h mu * h mu)) (seq 0 4) 0) * (fold_left (fun s mu => s + h mu * h mu) (seq 0 4) 0 - c1 gl * (fold_left (fun s mu => s + h mu * h mu) (seq 0 4) 0 * fold_left (fun s mu => s + h mu * h mu) (seq 0 4) 0 + fold_left (fun s mu => s + h mu * h mu * (h mu * h mu)) (seq 0 4) 0) + / 2 * (c1 gl * c1 gl) * (fold_left (fun s mu => s + h mu * h mu) (seq 0 4) 0 * fold_left (fun s mu => s + h mu * h mu) (seq 0 4) 0 * fold_left (fun s mu => s + h mu * h mu) (seq 0 4) 0 + 2 * fold_left (fun s mu => s + h mu * h mu * (h mu * h mu) * (h mu * h mu)) (seq 0 4) 0 - fold_left (fun s mu => s + h mu * h mu) (seq 0 4) 0 * fold_left (fun s mu => s + h mu * h mu * (h mu * h mu)) (seq 0 4) 0))) *
            (fold_left (fun s mu => s + h mu * h mu) (seq 0 4) 0 * fold_left (fun s mu => s + h mu * h mu) (seq 0 4) 0 - c1 gl * fold_left (fun s mu => s + h mu * h mu) (seq 0 4) 0 * (2 * fold_left (fun s mu => s + h mu * h mu * (h mu * h mu)) (seq 0 4) 0 + fold_left (fun s mu => s + h mu * h mu) (seq 0 4) 0 * fold_left (fun p rho => if (negb (Nat.eqb si rho) && negb (Nat.eqb nu rho))%bool then p + h rho * h rho else p) (seq 0 4) 0) + c1 gl * c1 gl * (fold_left (fun s mu => s + h mu * h mu * (h mu * h mu)) (seq 0 4) 0 * fold_left (fun s mu => s + h mu * h mu * (h mu * h mu)) (seq 0 4) 0 + fold_left (fun s mu => s + h mu * h mu) (seq 0 4) 0 * fold_left (fun s mu => s + h mu * h mu * (h mu * h mu)) (seq 0 4) 0 * fold_left (fun p rho => if (negb (Nat.eqb si rho) && negb (Nat.eqb nu rho))%bool then p + h rho * h rho else p) (seq 0 4) 0 + fold_left (fun s mu => s + h mu * h mu) (seq 0 4) 0 * fold_left (fun s mu => s + h mu * h mu) (seq 0 4) 0 * fold_left (fun p rho => if (negb (Nat.eqb si rho) && negb (Nat.eqb nu rho))%bool then p * (h rho * h rho) else p) (seq 0 4) 1)))) m);;
            (if below (Rabs (fold_left (fun s mu => s + h mu * h mu) (seq 0 4) 0)) tol14 then set_re p 0 else fun m => set_re p (re m p / (fold_left (fun s mu => s + h mu * h mu) (seq 0 4) 0 * fold_left (fun s mu => s + h mu * h mu) (seq 0 4) 0 * IZR V)) m);;
            set_im p 0));; cancel_if_zero_mode_spin1prop prop gl x) prop (fun _ mu nu => RtoC (if below (Rabs (s2 h)) tol14 then 0 else (alpha * h mu * h nu + Tw (c1 gl) h mu nu) / (s2 h * s2 h * IZR V)))).
  { intros alpha. apply Fin. intros m.
    match goal with |- deq (ss (unroll_for 0 4 (fun mu => unroll_for 0 4 (@?B mu)) m) prop) ?Y /\ _ => pose proof (ss_loop B prop (fun _ => Y)) as H end.
    destruct H with (m := m) as [A B].
    - intros mu nu _ _ m0 q. cbv zeta. rewrite elem. unfold upd. destruct (path_dec _ _); [|reflexivity]. f_equal.
      destruct (covariant_val (c1 gl) alpha h mu nu) as [E2 E]. cbv zeta in E2, E. rewrite E. rewrite E2. reflexivity.
    - reflexivity.
    - split; [exact A|]. intros q Q. apply B; tauto. }
  destruct (which_gauge gl) eqn:G.
  - eexists. split; [reflexivity|]. exact (Cov 1).
  - eexists. split; [reflexivity|]. exact (Cov 0).
  - destruct (HC eq_refl) as [C1 | NK].
    2: { exfalso. apply NK. now apply nonzero_kept. }
    destruct (Req_EM_T (c1 gl) 0) as [_|N]; [|contradiction]. eexists. split; [reflexivity|]. apply Fin. intros m.
    match goal with |- deq (ss (unroll_for 0 4 (fun mu => unroll_for 0 4 (@?B mu)) m) prop) ?Y /\ _ => pose proof (ss_loop B prop (fun _ => Y)) as H end.
    destruct H with (m := m) as [A B].
    + intros mu nu _ _ m0 q. rewrite then_run.
      assert (E1 : fold_left (fun s mu => s + h mu * h mu) (seq 1 3) 0 = hs h) by (unfold hs; cbn [seq fold_left]; ring).
      assert (E2 : fold_left (fun s mu => s + h mu * h mu) (seq 0 4) 0 = s2 h) by (unfold s2, rsum; cbn [seq fold_left fold_right]; ring).
      rewrite E1, E2. fold tol14. fold (sp mu) (sp nu). destruct (above (Rabs (hs h)) tol14); unfold set_re, set_im, re; rewrite upd_same, upd_upd; cbn [fst]; unfold upd; destruct (path_dec _ _); reflexivity.
    + reflexivity.
    + split; [exact A|]. intros q Q. apply B; tauto.
Qed.
Lemma propagator_crash prop gl x : which_gauge gl = COULOMB -> c1 gl <> 0 -> kept (zms gl) x -> mom_space_tlSym_gauge_propagator_of_imom L V prop gl x = None.
Proof.
  intros G C K. unfold mom_space_tlSym_gauge_propagator_of_imom. apply nonzero_kept in K. rewrite K. cbn [negb]. cbv zeta. rewrite G. destruct (Req_EM_T _ _); [contradiction|reflexivity].
Qed.
End P.
