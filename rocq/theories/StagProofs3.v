From Coq Require Import Reals Lra Lia List FunctionalExtensionality.
From Coquelicot Require Import Complex.
From Verif Require Import CplxModel CplxSpec CplxProofs CplxStores MatModel MatSpec MatProofs MatRun MatProofs2 EvolveModel ParLoop StagModel StagSpec StagProofs StagProofs2.
Import ListNotations.
Open Scope C_scope.
Set Bullet Behavior "Strict Subproofs".

Lemma unroll_dirs f : unroll_for 0 NDIM f = (f 0%nat;; f 1%nat;; f 2%nat;; f 3%nat). Proof. reflexivity. Qed.
Section D2.
Variables (sched : nat -> list nat) (nup ndw : nat -> nat -> nat -> nat) (n : nat) (Hs : forall l, order n (sched l)).
Variables (conf o vu vd cu cd : path).
(** the variables of the body *)
Definition inner (q : path) : Prop := in_vec vu q \/ in_vec vd q \/ in_mat cu q \/ in_mat cd q.
Definition body_loc (q : path) : Prop := in_vec o q \/ inner q.
Hypotheses (L1 : apart o vu) (L2 : apart o vd) (L3 : apart o cu) (L4 : apart o cd) (L5 : apart vu vd) (L6 : apart vu cu) (L7 : apart vu cd)
  (L8 : apart vd cu) (L9 : apart vd cd) (L10 : apart cu cd) (C1 : apart conf o) (C2 : apart conf vu) (C3 : apart conf vd) (C4 : apart conf cu) (C5 : apart conf cd).

Lemma zero_ok : sets_vec (color_put_to_zero o) o (fun _ _ => RtoC 0).
Proof. unfold color_put_to_zero. go1. Qed.
Ltac out_of := let F := fresh in intros F; unfold body_loc, inner, in_vec, in_mat in F; decompose [or and ex] F; clear F;
  match goal with E : _ = _ |- _ => revert E; ap end.
Section One.
Variables (inp : path) (p : nat) (I1 : apart inp o) (I2 : apart inp vu) (I3 : apart inp vd) (I4 : apart inp cu) (I5 : apart inp cd).
Definition G (x mu : nat) : mem -> mem :=
  color_copy vu inp@[nup p x mu];; color_copy vd inp@[ndw p x mu];; su3_copy cu conf@[p]@[x]@[mu];; su3_copy cd conf@[(1 - p)%nat]@[ndw p x mu]@[mu];;
  su3_summ_the_prod_color o cu vu;; su3_dag_subt_the_prod_color o cd vd.
Lemma G_ok x mu : sets_vec_loc inner (G x mu) o (fun m i => vec m o i + 1%R * term nup ndw (lks m conf) p (fld m inp) x mu i).
Proof.
  intros m. unfold G. rewrite !then_run.
  destruct (color_copy_ok vu inp@[nup p x mu] [] 0 0 m) as [A1 A2]. set (m1 := color_copy vu _ m) in *.
  destruct (color_copy_ok vd inp@[ndw p x mu] [] 0 0 m1) as [B1 B2]. set (m2 := color_copy vd _ m1) in *.
  destruct (su3_copy_ok cu conf@[p]@[x]@[mu] [] 0 0 m2) as [D1 D2]. set (m3 := su3_copy cu _ m2) in *.
  destruct (su3_copy_ok cd conf@[(1 - p)%nat]@[ndw p x mu]@[mu] [] 0 0 m3) as [E1 E2]. set (m4 := su3_copy cd _ m3) in *.
  destruct (summ_subt_ok o cu vu cd vd ltac:(ap) ltac:(ap) ltac:(intros; ap) ltac:(intros; ap) m4) as [S1 S2]. rewrite then_run in S1, S2.
  assert (F : forall q, ~ inner q -> m4 q = m q).
  { intros q Q. unfold inner in Q. rewrite E2, D2, B2, A2; tauto. }
  assert (V1 : veq (vec m4 vu) (vec m inp@[nup p x mu])).
  { intros i Hi. unfold vec. rewrite E2, D2, B2; try out_of; try tauto. exact (A1 i Hi). }
  assert (V2 : veq (vec m4 vd) (vec m inp@[ndw p x mu])).
  { intros i Hi. unfold vec. rewrite E2, D2; try out_of; try tauto. etransitivity; [exact (B1 i Hi)|]. unfold vec. rewrite A2; [reflexivity|out_of|tauto]. }
  assert (M1 : meq (mat m4 cu) (mat m conf@[p]@[x]@[mu])).
  { intros i j Hi Hj. unfold mat. rewrite E2; try out_of; try tauto. etransitivity; [exact (D1 i j Hi Hj)|]. unfold mat. rewrite B2, A2; try out_of; try tauto; try reflexivity. }
  assert (M2 : meq (mat m4 cd) (mat m conf@[(1 - p)%nat]@[ndw p x mu]@[mu])).
  { intros i j Hi Hj. etransitivity; [exact (E1 i j Hi Hj)|]. unfold mat. rewrite D2, B2, A2; try out_of; try tauto; try reflexivity. }
  split.
  - intros i Hi. rewrite (S1 i Hi). unfold vec at 1. rewrite F by out_of. unfold term, lks, fld.
    rewrite (mvec_ext _ _ _ _ i M1 V1 Hi), (mvec_ext _ _ _ _ i (dag_ext _ _ M2) V2 Hi). reflexivity.
  - intros q Q L. rewrite S2 by tauto. apply F, L.
Qed.
Lemma reads_o q : reads conf inp q -> ~ in_vec o q /\ ~ inner q.
Proof. intros [(? & ? & ? & ? & ? & ->)|(? & ? & ->)]; (split; [out_of|unfold inner; out_of]). Qed.
Lemma sum_ok x : sets_vec_loc inner (color_put_to_zero o;; unroll_for 0 NDIM (G x)) o (fun m => hop nup ndw (lks m conf) p (fld m inp) x).
Proof.
  rewrite unroll_dirs.
  assert (ST : forall mu f v, sets_vec_loc inner f o v -> sets_vec_loc inner (f;; G x mu) o (fun m i => v m i + 1%R * term nup ndw (lks m conf) p (fld m inp) x mu i)).
  { intros mu f v Hf. apply acc_step; [exact Hf|apply G_ok|].
    intros m m' H. apply term_ext. intros q Hq. apply H; apply reads_o; exact Hq. }
  assert (Z : sets_vec_loc inner (color_put_to_zero o) o (fun _ _ => RtoC 0)).
  { apply (weaken _ _ _ _ _ zero_ok). intros m i Hi. reflexivity. }
  pose proof (ST 3%nat _ _ (ST 2%nat _ _ (ST 1%nat _ _ (ST 0%nat _ _ Z)))) as H. rewrite !then_assoc in H.
  intros m. destruct (H m) as [H1 H2]. split; [|exact H2].
  intros i Hi. etransitivity; [exact (H1 i Hi)|]. unfold hop, term. cbn [csum]. ring.
Qed.
Lemma loop_ok l out : apart out conf -> apart out inp -> apart out o -> apart out vu -> apart out vd -> apart out cu -> apart out cd ->
  sets_fld_loc body_loc n (PAR (sched l) (fun x => color_put_to_zero o;; unroll_for 0 NDIM (G x);; color_copy out@[x] o)) out
    (fun m => hop nup ndw (lks m conf) p (fld m inp)).
Proof.
  intros A1 A2 A3 A4 A5 A6 A7. apply (fld_par _ n _ out (fun x m => hop nup ndw (lks m conf) p (fld m inp) x)); [apply Hs| | |].
  - intros k Hk m. rewrite <- then_assoc, then_run. destruct (sum_ok k m) as [S1 S2]. set (m1 := then_ _ _ m) in *.
    destruct (color_copy_ok out@[k] o [] 0 0 m1) as [K1 K2]. split.
    + intros i Hi. rewrite (K1 i Hi). exact (S1 i Hi).
    + intros q Q L. unfold body_loc in L. rewrite K2, S2; tauto.
  - intros k q Hk (i & _ & ->). unfold body_loc, inner. out_of.
  - intros k m m' Hk H. apply hop_ext. intros q Hq. apply H.
    + intros k' _ _. apply (reads_out out conf inp A1 A2 k' q Hq).
    + destruct (reads_o q Hq). unfold body_loc. tauto.
Qed.
End One.

Lemma D2ee_ok out temp mass2 inp m :
  out <> inp -> apart temp out -> apart temp inp -> apart temp conf -> apart out conf -> apart out inp ->
  apart temp o -> apart temp vu -> apart temp vd -> apart temp cu -> apart temp cd ->
  apart out o -> apart out vu -> apart out vd -> apart out cu -> apart out cd ->
  apart inp o -> apart inp vu -> apart inp vd -> apart inp cu -> apart inp cd ->
  (forall p x mu, (p < 2)%nat -> (x < n)%nat -> (mu < 4)%nat -> (nup p x mu < n)%nat /\ (ndw p x mu < n)%nat) ->
  exists m', apply_stD2ee_m2 sched nup ndw out conf temp mass2 inp o vu vd cu cd m = Some m' /\
    feq n (fld m' out) (stD2ee nup ndw (lks m conf) mass2 (fld m inp)) /\ feq n (fld m' temp) (hop nup ndw (lks m conf) 1 (fld m inp)) /\
    (forall q, (forall x, (x < n)%nat -> ~ in_vec out@[x] q) -> (forall x, (x < n)%nat -> ~ in_vec temp@[x] q) -> ~ body_loc q -> m' q = m q).
Proof.
  intros N T1 T2 T3 O1 O2 P1 P2 P3 P4 P5 Q1 Q2 Q3 Q4 Q5 R1 R2 R3 R4 R5 HL.
  unfold apply_stD2ee_m2. destruct (path_dec out inp) as [E|_]; [contradiction|]. eexists. split; [reflexivity|]. rewrite !then_run.
  match goal with |- context [PAR (sched 0%nat) ?f m] => destruct (loop_ok inp 1 R1 R2 R3 R4 R5 0 temp T3 T2 P1 P2 P3 P4 P5 m : _ /\ _) as [X1 X2];
    change f with (fun x => color_put_to_zero o;; unroll_for 0 NDIM (G inp 1 x);; color_copy temp@[x] o) end.
  set (m1 := PAR (sched 0%nat) _ m) in *.
  match goal with |- context [PAR (sched 1%nat) ?f m1] => destruct (loop_ok temp 0 P1 P2 P3 P4 P5 1 out O1 (apart_sym _ _ T1) Q1 Q2 Q3 Q4 Q5 m1 : _ /\ _) as [Y1 Y2];
    change f with (fun x => color_put_to_zero o;; unroll_for 0 NDIM (G temp 0 x);; color_copy out@[x] o) end.
  set (m2 := PAR (sched 1%nat) _ m1) in *.
  (* what the second loop finds *)
  assert (U1 : forall p x mu, meq (lks m1 conf p x mu) (lks m conf p x mu)).
  { intros p x mu i j Hi Hj. unfold lks, mat. apply X2; [|unfold body_loc, inner; out_of]. intros y _. out_of. }
  assert (Y3 : feq n (fld m2 out) (hop nup ndw (lks m conf) 0 (hop nup ndw (lks m conf) 1 (fld m inp)))).
  { intros x Hx i Hi. rewrite (Y1 x Hx i Hi). unfold hop at 1 2. cbn [csum].
    assert (T : forall mu, (mu < 4)%nat -> mvec (lks m1 conf 0%nat x mu) (fld m1 temp (nup 0%nat x mu)) i = mvec (lks m conf 0%nat x mu) (hop nup ndw (lks m conf) 1 (fld m inp) (nup 0%nat x mu)) i /\
      mvec (dag (lks m1 conf (1 - 0)%nat (ndw 0%nat x mu) mu)) (fld m1 temp (ndw 0%nat x mu)) i = mvec (dag (lks m conf (1 - 0)%nat (ndw 0%nat x mu) mu)) (hop nup ndw (lks m conf) 1 (fld m inp) (ndw 0%nat x mu)) i).
    { intros mu Hmu. destruct (HL 0%nat x mu ltac:(lia) Hx Hmu) as [Hu Hd]. split; apply mvec_ext; try exact Hi; try apply dag_ext; try apply U1.
      - exact (X1 _ Hu). - exact (X1 _ Hd). }
    destruct (T 0%nat ltac:(lia)) as [-> ->], (T 1%nat ltac:(lia)) as [-> ->], (T 2%nat ltac:(lia)) as [-> ->], (T 3%nat ltac:(lia)) as [-> ->]. reflexivity. }
  assert (IN : forall x i, fld m2 inp x i = fld m inp x i).
  { intros x i. unfold fld, vec. rewrite Y2, X2; [reflexivity| | | |]; try (intros y _; out_of); unfold body_loc, inner; out_of. }
  assert (Z : forall f (a b : R), (forall g site ic, f g site ic = (a * g inp@[site]@[ic] + b * g out@[site]@[ic])%R) -> a = mass2 -> b = (- / 4)%R ->
    let m' := FOR_EACH_SITE_DEG (sched 2%nat) out f m2 in
    feq n (fld m' out) (stD2ee nup ndw (lks m conf) mass2 (fld m inp)) /\ feq n (fld m' temp) (hop nup ndw (lks m conf) 1 (fld m inp)) /\
    (forall q, (forall x, (x < n)%nat -> ~ in_vec out@[x] q) -> (forall x, (x < n)%nat -> ~ in_vec temp@[x] q) -> ~ body_loc q -> m' q = m q)).
  { intros f a b Hf Ea Eb m'. destruct (deg_loop n (sched 2%nat) out inp a b f (Hs 2) O2 Hf m2) as [D1 D2]. fold m' in D1, D2. split; [|split].
    - intros x Hx i Hi. rewrite (D1 x Hx i Hi). unfold stD2ee, fcomb. rewrite IN, (Y3 x Hx i Hi), Ea, Eb. reflexivity.
    - intros x Hx i Hi. rewrite <- (X1 x Hx i Hi). unfold fld, vec. rewrite D2, Y2; try tauto; try (intros y _; out_of). unfold body_loc, inner; out_of.
    - intros q Qo Qt Ql. rewrite D2, Y2, X2; tauto. }
  destruct (Req_EM_T mass2 0) as [E0|E0].
  - apply (Z _ 0%R (- / 4)%R); [intros; lra|symmetry; exact E0|reflexivity].
  - apply (Z _ mass2 (- / 4)%R); [intros; lra|reflexivity|reflexivity].
Qed.
End D2.
