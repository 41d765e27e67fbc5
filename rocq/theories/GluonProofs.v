From Coq Require Import Reals Lra Lia List ZArith.
From Coquelicot Require Import Complex.
From Verif Require Import CplxModel MatSpec DiracSpec SpinSpec BackSpec BackProofs FreeTmSpec FreeTmProofs GluonModel GluonSpec.
Import ListNotations.
Open Scope R_scope.
Set Bullet Behavior "Strict Subproofs".

Definition qw (c1 : R) (h : nat -> R) (mu nu : nat) : R := 1 - c1 * (h mu * h mu + h nu * h nu).
Definition K0 (c1 : R) (h : nat -> R) (mu nu : nat) : R := rsum 4 (fun rho => (h rho * dlt mu nu - h mu * dlt rho nu) * qw c1 h mu rho * h rho).
Definition form (K : nat -> nat -> R) (a : nat -> C) : R := rsum 4 (fun mu => rsum 4 (fun nu => K mu nu * (fst (a mu) * fst (a nu) + snd (a mu) * snd (a nu)))).

Lemma nrm2_mult x y : nrm2 (x * y)%C = nrm2 x * nrm2 y.
Proof. unfold nrm2. cbn. ring. Qed.
Lemma nrm2_expi t : nrm2 (expi t) = 1.
Proof. unfold nrm2, expi. cbn. pose proof (sin2_cos2 t) as E. unfold Rsqr in E. lra. Qed.
(** e^{i(u+k)} - e^{i(u-k)} with half angles *)
Lemma plaq_sum k a mu nu : path_sum k a 0 (plaquette mu nu) = (expi (k mu / 2 + k nu / 2) * (Ci * (khat k mu * a nu - khat k nu * a mu)))%C.
Proof.
  unfold plaquette. cbn [path_sum]. 
  replace (0 + k mu / 2) with (k mu / 2) by ring. replace (0 + k mu + k nu / 2) with (k mu / 2 + k mu / 2 + k nu / 2) by field.
  replace (0 + k mu + k nu - k mu / 2) with (k mu / 2 + k nu / 2 + k nu / 2) by field. replace (0 + k mu + k nu - k mu - k nu / 2) with (k nu / 2) by field.
  rewrite !expi_plus. unfold khat. generalize (k mu / 2) (k nu / 2). intros u v. destruct (a mu) as [x y], (a nu) as [z w].
  pose proof (sin2_cos2 u) as Eu. pose proof (sin2_cos2 v) as Ev. unfold Rsqr in Eu, Ev. unfold expi, Ci.
  set (su := sin u) in *. set (cu := cos u) in *. set (sv := sin v) in *. set (cv := cos v) in *.
  assert (Cu : cu * cu = 1 - su * su) by lra. assert (Cv : cv * cv = 1 - sv * sv) by lra. clear Eu Ev.
  apply injective_projections; cbn; ring [Cu Cv].
Qed.
Lemma rect_sum k a mu nu : path_sum k a 0 (rectangle mu nu) = (2 * cos (k mu / 2) * expi (k mu / 2) * path_sum k a 0 (plaquette mu nu))%C.
Proof.
  rewrite plaq_sum. unfold rectangle. cbn [path_sum].
  replace (0 + k mu / 2) with (k mu / 2) by ring. replace (0 + k mu + k mu / 2) with (k mu / 2 + k mu / 2 + k mu / 2) by field.
  replace (0 + k mu + k mu + k nu / 2) with (k mu / 2 + k mu / 2 + (k mu / 2 + k mu / 2) + k nu / 2) by field.
  replace (0 + k mu + k mu + k nu - k mu / 2) with (k mu / 2 + k mu / 2 + k mu / 2 + k nu / 2 + k nu / 2) by field.
  replace (0 + k mu + k mu + k nu - k mu - k mu / 2) with (k mu / 2 + k nu / 2 + k nu / 2) by field.
  replace (0 + k mu + k mu + k nu - k mu - k mu - k nu / 2) with (k nu / 2) by field.
  rewrite !expi_plus. unfold khat. generalize (k mu / 2) (k nu / 2). intros u v. destruct (a mu) as [x y], (a nu) as [z w].
  pose proof (sin2_cos2 u) as Eu. pose proof (sin2_cos2 v) as Ev. unfold Rsqr in Eu, Ev. unfold expi, Ci.
  set (su := sin u) in *. set (cu := cos u) in *. set (sv := sin v) in *. set (cv := cos v) in *.
  assert (Cu : cu * cu = 1 - su * su) by lra. assert (Cv : cv * cv = 1 - sv * sv) by lra. clear Eu Ev.
  apply injective_projections; cbn; ring [Cu Cv].
Qed.
Lemma plaq_nrm k a mu nu : nrm2 (path_sum k a 0 (plaquette mu nu)) = nrm2 (khat k mu * a nu - khat k nu * a mu)%C.
Proof. rewrite plaq_sum, nrm2_mult, nrm2_expi, nrm2_mult. unfold nrm2 at 1. unfold Ci. cbn. ring. Qed.
Lemma rect_nrm k a mu nu : nrm2 (path_sum k a 0 (rectangle mu nu)) = (4 - khat k mu * khat k mu) * nrm2 (khat k mu * a nu - khat k nu * a mu)%C.
Proof.
  rewrite rect_sum, nrm2_mult, nrm2_mult, nrm2_expi, plaq_nrm. f_equal. unfold nrm2, khat. cbn. pose proof (sin2_cos2 (k mu / 2)) as E. unfold Rsqr in E. nra.
Qed.
Lemma action_form c1 k a : action c1 k a = / 2 * form (K0 c1 (khat k)) a.
Proof.
  unfold action, rsum. cbn [seq fold_right Nat.ltb Nat.leb Nat.eqb]. rewrite !plaq_nrm, !rect_nrm. unfold form, K0, qw, rsum, dlt. cbn [seq fold_right Nat.eqb].
  set (h := khat k). generalize (h 0%nat) (h 1%nat) (h 2%nat) (h 3%nat). intros h0 h1 h2 h3.
  destruct (a 0%nat) as [a0 b0], (a 1%nat) as [a1 b1], (a 2%nat) as [a2 b2], (a 3%nat) as [a3 b3]. unfold nrm2. cbn. ring.
Qed.
Ltac four mu H := destruct mu as [|[|[|[|mu]]]]; [| | | |exfalso; clear - H; lia]; clear H.
Lemma K0_sym c1 h mu nu : (mu < 4)%nat -> (nu < 4)%nat -> K0 c1 h mu nu = K0 c1 h nu mu.
Proof. intros H1 H2. four mu H1; four nu H2; unfold K0, qw, rsum, dlt; cbn [seq fold_right Nat.eqb]; ring. Qed.
(** there is a kinetic operator, and only one *)
Lemma kinetic_ex c1 k : kinetic c1 k (K0 c1 (khat k)).
Proof. split; [intros; now apply K0_sym|]. intros a. apply action_form. Qed.
Definition ev (mu : nat) : nat -> C := fun i => RtoC (dlt mu i).
Lemma form_ev K mu nu : (mu < 4)%nat -> (nu < 4)%nat -> form K (fun i => ev mu i + ev nu i)%C = K mu mu + K nu nu + K mu nu + K nu mu.
Proof. intros H1 H2. four mu H1; four nu H2; unfold form, ev, rsum, dlt; cbn [seq fold_right Nat.eqb RtoC Cplus fst snd]; ring. Qed.
Lemma form_e K mu : (mu < 4)%nat -> form K (ev mu) = K mu mu.
Proof. intros H1. four mu H1; unfold form, ev, rsum, dlt; cbn [seq fold_right Nat.eqb RtoC Cplus fst snd]; ring. Qed.
Lemma kinetic_only c1 k K : kinetic c1 k K -> forall mu nu, (mu < 4)%nat -> (nu < 4)%nat -> K mu nu = K0 c1 (khat k) mu nu.
Proof.
  intros [S A] mu nu H1 H2. assert (F : forall a, form K a = form (K0 c1 (khat k)) a).
  { intros a. pose proof (A a) as E. rewrite action_form in E. fold (form K a) in E. lra. }
  pose proof (F (ev mu)) as E1. pose proof (F (ev nu)) as E2. pose proof (F (fun i => ev mu i + ev nu i)%C) as E3. rewrite !form_e in E1 by assumption. rewrite !form_e in E2 by assumption. rewrite !form_ev in E3 by assumption.
  rewrite (S nu mu) in E3 by assumption. rewrite (K0_sym c1 _ nu mu) in E3 by assumption. lra.
Qed.

(** *** the inverse on the transverse modes *)
Section W.
Context (c1 : R) (h : nat -> R).
Definition s2 := rsum 4 (fun mu => h mu * h mu).
Definition s4 := rsum 4 (fun mu => h mu * h mu * (h mu * h mu)).
Definition s6 := rsum 4 (fun mu => h mu * h mu * (h mu * h mu) * (h mu * h mu)).
Definition oth (mu nu rho : nat) : bool := (negb (Nat.eqb mu rho) && negb (Nat.eqb nu rho))%bool.
Definition po (mu nu : nat) := fold_right (fun rho p => if oth mu nu rho then h rho * h rho * p else p) 1 (seq 0 4).
Definition so (mu nu : nat) := fold_right (fun rho p => if oth mu nu rho then h rho * h rho + p else p) 0 (seq 0 4).
Definition Dl := (s2 - c1 * s4) * (s2 - c1 * (s2 * s2 + s4) + / 2 * (c1 * c1) * (s2 * s2 * s2 + 2 * s6 - s2 * s4)) - 4 * (c1 * c1 * c1) * rsum 4 (fun rho => h rho * h rho * (h rho * h rho) * po rho rho).
Definition An (mu nu : nat) := s2 * s2 - c1 * s2 * (2 * s4 + s2 * so mu nu) + c1 * c1 * (s4 * s4 + s2 * s4 * so mu nu + s2 * s2 * po mu nu).
Definition Aw (mu nu : nat) := (1 - dlt mu nu) / Dl * An mu nu.
Definition Tw (mu nu : nat) := rsum 4 (fun si => (h si * dlt mu nu - h nu * dlt mu si) * h si * Aw si nu).
Definition Tn (mu nu : nat) := rsum 4 (fun si => (h si * dlt mu nu - h nu * dlt mu si) * h si * ((1 - dlt si nu) * An si nu)).
Lemma Tw_n mu nu : Tw mu nu = Tn mu nu / Dl.
Proof. unfold Tw, Tn, Aw, rsum. cbn [seq fold_right]. unfold Rdiv. ring. Qed.
End W.
Lemma KTn c1 h mu nu : (mu < 4)%nat -> (nu < 4)%nat -> rsum 4 (fun rho => K0 c1 h mu rho * Tn c1 h rho nu) = Dl c1 h * (s2 h * (s2 h * dlt mu nu - h mu * h nu)).
Proof.
  intros H1 H2. four mu H1; four nu H2; unfold Dl, Tn, An, K0, qw, s2, s4, s6, po, so, oth, rsum, dlt; cbn [seq fold_right Nat.eqb negb andb];
  generalize (h 0%nat) (h 1%nat) (h 2%nat) (h 3%nat); clear; intros; field.
Qed.
Lemma Tw_trans c1 h mu : (mu < 4)%nat -> rsum 4 (fun nu => h nu * Tw c1 h mu nu) = 0.
Proof.
  intros H1. four mu H1; unfold Tw, Aw, An, po, so, oth, rsum, dlt; cbn [seq fold_right Nat.eqb negb andb]; generalize (s2 h) (s4 h) (Dl c1 h); generalize (h 0%nat) (h 1%nat) (h 2%nat) (h 3%nat); clear; intros; unfold Rdiv; ring.
Qed.
Lemma Tw_sym c1 h mu nu : (mu < 4)%nat -> (nu < 4)%nat -> Tw c1 h mu nu = Tw c1 h nu mu.
Proof.
  intros H1 H2. four mu H1; four nu H2; unfold Tw, Aw, An, po, so, oth, rsum, dlt; cbn [seq fold_right Nat.eqb negb andb]; generalize (s2 h) (s4 h) (Dl c1 h); generalize (h 0%nat) (h 1%nat) (h 2%nat) (h 3%nat); clear; intros; unfold Rdiv; ring.
Qed.
Lemma K0_trans c1 h mu : (mu < 4)%nat -> rsum 4 (fun nu => K0 c1 h mu nu * h nu) = 0.
Proof. intros H1. four mu H1; unfold K0, qw, rsum, dlt; cbn [seq fold_right Nat.eqb]; ring. Qed.
Lemma Dl_pos c1 h : c1 <= 0 -> 0 < s2 h -> 0 < Dl c1 h.
Proof.
  intros C P. unfold Dl. set (e := - c1). replace c1 with (- e) by (unfold e; ring). assert (E : 0 <= e) by (unfold e; lra). clearbody e. clear c1 C.
  assert (P4 : 0 <= s4 h) by (unfold s4, rsum; cbn [seq fold_right]; pose proof (Rle_0_sqr (h 0%nat * h 0%nat)); pose proof (Rle_0_sqr (h 1%nat * h 1%nat)); pose proof (Rle_0_sqr (h 2%nat * h 2%nat)); pose proof (Rle_0_sqr (h 3%nat * h 3%nat)); unfold Rsqr in *; lra).
  assert (P6 : 0 <= s6 h).
  { unfold s6, rsum. cbn [seq fold_right]. pose proof (pow2_ge_0 (h 0%nat * h 0%nat * h 0%nat)). pose proof (pow2_ge_0 (h 1%nat * h 1%nat * h 1%nat)). pose proof (pow2_ge_0 (h 2%nat * h 2%nat * h 2%nat)). pose proof (pow2_ge_0 (h 3%nat * h 3%nat * h 3%nat)). nra. }
  assert (P42 : s4 h <= s2 h * s2 h).
  { unfold s4, s2, rsum. cbn [seq fold_right]. pose proof (Rle_0_sqr (h 0%nat)). pose proof (Rle_0_sqr (h 1%nat)). pose proof (Rle_0_sqr (h 2%nat)). pose proof (Rle_0_sqr (h 3%nat)). unfold Rsqr in *.
    generalize dependent (h 0%nat * h 0%nat). generalize dependent (h 1%nat * h 1%nat). generalize dependent (h 2%nat * h 2%nat). generalize dependent (h 3%nat * h 3%nat). clear. intros. nra. }
  assert (R0 : 0 <= rsum 4 (fun rho => h rho * h rho * (h rho * h rho) * po h rho rho)).
  { assert (G : forall r, 0 <= h r * h r) by (intros; apply Rle_0_sqr). unfold rsum, po, oth. cbn [seq fold_right Nat.eqb negb andb]. repeat first [apply G | apply Rplus_le_le_0_compat | apply Rmult_le_pos | lra]. }
  set (x := s2 h) in *. set (y := s4 h) in *. set (z := s6 h) in *. set (r := rsum 4 _) in *. clearbody x y z r.
  assert (A1 : x <= x - - e * y) by nra.
  assert (A2 : x <= x - - e * (x * x + y) + / 2 * (- e * - e) * (x * x * x + 2 * z - x * y)).
  { assert (0 <= e * (x * x + y)) by (apply Rmult_le_pos; nra). assert (0 <= x * (x * x - y)) by (apply Rmult_le_pos; lra). assert (0 <= e * e * (x * x * x + 2 * z - x * y)) by (apply Rmult_le_pos; nra). lra. }
  assert (A3 : 0 <= e * e * e * r) by (repeat apply Rmult_le_pos; assumption). assert (0 < (x - - e * y) * (x - - e * (x * x + y) + / 2 * (- e * - e) * (x * x * x + 2 * z - x * y))) by (apply Rmult_lt_0_compat; lra). nra.
Qed.
(** the propagator of the covariant gauges, times the volume *)
Definition Pc (c1 alpha : R) (h : nat -> R) (mu nu : nat) : R := (alpha * h mu * h nu + Tw c1 h mu nu) / (s2 h * s2 h).
Lemma K_Pc c1 alpha h mu nu : (mu < 4)%nat -> (nu < 4)%nat -> c1 <= 0 -> 0 < s2 h -> rsum 4 (fun rho => K0 c1 h mu rho * Pc c1 alpha h rho nu) = dlt mu nu - h mu * h nu / s2 h.
Proof.
  intros H1 H2 C P. pose proof (Dl_pos c1 h C P) as D. pose proof (KTn c1 h mu nu H1 H2) as E1. pose proof (K0_trans c1 h mu H1) as E2. unfold Pc. rewrite <- (f_equal (fun z => z / (s2 h * s2 h)) (Rplus_0_l (s2 h * (s2 h * dlt mu nu - h mu * h nu)))) || idtac.
  transitivity ((alpha * h nu * rsum 4 (fun rho => K0 c1 h mu rho * h rho) + rsum 4 (fun rho => K0 c1 h mu rho * Tn c1 h rho nu) / Dl c1 h) / (s2 h * s2 h)).
  { rewrite <- !(Tw_n c1 h) || idtac. unfold rsum. cbn [seq fold_right]. rewrite !Tw_n. field. split; lra. }
  rewrite E1, E2. field. split; lra.
Qed.
Lemma Pc_trans c1 alpha h mu : (mu < 4)%nat -> 0 < s2 h -> rsum 4 (fun nu => h nu * Pc c1 alpha h mu nu) = alpha * h mu / s2 h.
Proof.
  intros H1 P. pose proof (Tw_trans c1 h mu H1) as E. unfold Pc. transitivity ((alpha * h mu * s2 h + rsum 4 (fun nu => h nu * Tw c1 h mu nu)) / (s2 h * s2 h)).
  { set (d := (s2 h * s2 h)). unfold s2, rsum. cbn [seq fold_right]. unfold Rdiv. ring. }
  rewrite E. field. lra.
Qed.
Lemma Pc_sym c1 alpha h mu nu : (mu < 4)%nat -> (nu < 4)%nat -> Pc c1 alpha h mu nu = Pc c1 alpha h nu mu.
Proof. intros H1 H2. unfold Pc. rewrite (Tw_sym c1 h mu nu) by assumption. unfold Rdiv. ring. Qed.
(** Coulomb, c1=0 *)
Definition hs (h : nat -> R) : R := h 1%nat * h 1%nat + h 2%nat * h 2%nat + h 3%nat * h 3%nat.
Definition sp (mu : nat) : R := b2R (negb (Nat.eqb mu 0)).
Definition Pk (h : nat -> R) (mu nu : nat) : R := (dlt mu nu - h mu * h nu * (sp nu + sp mu - 1) / hs h) / s2 h.
Lemma K_Pk h mu nu : (mu < 4)%nat -> (nu < 4)%nat -> hs h <> 0 -> s2 h <> 0 -> rsum 4 (fun rho => K0 0 h mu rho * Pk h rho nu) = dlt mu nu - sp mu * h mu * h nu / hs h.
Proof.
  intros H1 H2 P1 P2. revert P1 P2. unfold Pk. four mu H1; four nu H2; unfold K0, qw, sp, s2, hs, rsum, dlt; cbn [seq fold_right Nat.eqb negb b2R]; generalize (h 0%nat) (h 1%nat) (h 2%nat) (h 3%nat); clear; intros; field; repeat split; intros E; first [apply P1; lra | apply P2; lra].
Qed.
Lemma Pk_trans h nu : (nu < 4)%nat -> hs h <> 0 -> s2 h <> 0 -> h 1%nat * Pk h 1 nu + h 2%nat * Pk h 2 nu + h 3%nat * Pk h 3 nu = 0.
Proof.
  intros H2 P1 P2. revert P1 P2. unfold Pk. four nu H2; generalize (s2 h); intros z; unfold sp, hs, dlt; cbn [seq fold_right Nat.eqb negb b2R]; generalize (h 0%nat) (h 1%nat) (h 2%nat) (h 3%nat); clear; intros; field; split; assumption.
Qed.
Lemma Pk_sym h mu nu : (mu < 4)%nat -> (nu < 4)%nat -> Pk h mu nu = Pk h nu mu.
Proof. intros H1 H2. unfold Pk. assert (E : dlt mu nu = dlt nu mu) by (unfold dlt; now rewrite Nat.eqb_sym). rewrite E. unfold Rdiv. ring. Qed.
(** positivity *)
Lemma form_K0 c1 h a : c1 <= 0 -> 0 <= form (K0 c1 h) a.
Proof.
  intros C. assert (E : form (K0 c1 h) a = rsum 4 (fun mu => rsum 4 (fun nu => if Nat.ltb mu nu then qw c1 h mu nu * nrm2 (h mu * a nu - h nu * a mu)%C else 0))).
  { unfold form, K0, qw, rsum, dlt, nrm2. cbn [seq fold_right Nat.eqb Nat.ltb Nat.leb]. destruct (a 0%nat) as [a0 b0], (a 1%nat) as [a1 b1], (a 2%nat) as [a2 b2], (a 3%nat) as [a3 b3]. cbn. ring. }
  rewrite E. unfold rsum. cbn [seq fold_right Nat.ltb Nat.leb].
  assert (Q : forall mu nu, 0 <= qw c1 h mu nu * nrm2 (h mu * a nu - h nu * a mu)%C).
  { intros mu nu. apply Rmult_le_pos; [unfold qw; pose proof (Rle_0_sqr (h mu)); pose proof (Rle_0_sqr (h nu)); unfold Rsqr in *; nra|]. unfold nrm2. pose proof (Rle_0_sqr (fst (h mu * a nu - h nu * a mu)%C)). pose proof (Rle_0_sqr (snd (h mu * a nu - h nu * a mu)%C)). unfold Rsqr in *. lra. }
  repeat match goal with |- context[qw c1 h ?m ?n * nrm2 ?z] => let H := fresh in pose proof (Q m n) as H; set (qw c1 h m n * nrm2 z) in * end. lra.
Qed.
