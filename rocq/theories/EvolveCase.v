(** A run where the hypotheses on the exponentials hold: diagonal momenta diag(h,-h,0), a force pushing along the same direction. *)
From Coq Require Import Reals Lra Lia List.
From Coquelicot Require Import Complex.
From Verif Require Import CplxModel CplxSpec MatModel MatSpec MatRun MatAlg ExpModel ExpSpec EvolveModel EvolveSpec EvolveProofs EvolveMain EvolveEnd.
Import ListNotations.
Open Scope R_scope.
Set Bullet Behavior "Strict Subproofs".
Definition dirD : cmat := fun i j => if Nat.eqb i j then match i with 0%nat => RtoC 1 | 1%nat => RtoC (-1) | _ => RtoC 0 end else RtoC 0.
Definition diagD (h : R) : cmat := mscale (RtoC h) dirD.
(** the links do not influence the force, which is i kappa dirD *)
Definition pushing (kappa : R) (U : field) : field := fun ivol mu => mmul (dag (U ivol mu)) (mscale (Ci * RtoC kappa)%C dirD).
Lemma diagD_ht h : hermitian_traceless (diagD h).
Proof. split; [intros i j Hi Hj; idx i; idx j; unfold diagD, dirD, dag, mscale; ceq|unfold trace, diagD, dirD, mscale; ceq]. Qed.
Lemma diagD_zone h : 0.1 <= h -> exact_zone (diagD h).
Proof.
  intros Hh. assert (E1 : exp_c1 (diagD h) = h * h) by (unfold exp_c1, trace, mmul, diagD, dirD, mscale; cbn; field).
  assert (E0 : exp_c0 (diagD h) = 0) by (unfold exp_c0, det, diagD, dirD, mscale; cbn; field).
  assert (P : 0 < exp_c0_max (diagD h)) by (unfold exp_c0_max, Rpower; pose proof (exp_pos (1.5 * ln (exp_c1 (diagD h) / 3))); lra).
  unfold exact_zone. rewrite E0, E1, Rabs_R0. replace (0 / exp_c0_max (diagD h)) with 0 by (field; lra).
  replace ((exp_c0_max (diagD h) - 0) / exp_c0_max (diagD h)) with 1 by (field; lra).
  rewrite acos_0. replace (PI / 2 / 3) with (PI / 6) by field. rewrite sin_PI6, sqrt_square by lra. repeat split; nra.
Qed.
Lemma pushing_links n k : of_links n (pushing k).
Proof. intros U U' H iv mu H1 H2. unfold pushing. rewrite (H iv mu H1 H2). reflexivity. Qed.
Lemma pushing_const n k : constant_force n (pushing k) (fun _ _ => mscale (Ci * RtoC k)%C dirD).
Proof.
  intros U HU iv mu H1 H2. unfold force, pushing. destruct (HU iv mu H1 H2) as [Hu _]. unfold unitary in Hu.
  rewrite (ta_proper (mmul (U iv mu) (mmul (dag (U iv mu)) (mscale (Ci * RtoC k)%C dirD))) (mscale (Ci * RtoC k)%C dirD)).
  - intros i j Hi Hj. unfold traceless_part, anti_herm_part, msub, mscale, dag, trace. cbn [csum]. idx i; idx j; unfold dirD, mid; ceq.
  - rewrite <- mmul_assoc, Hu, mmul_1_l. reflexivity.
Qed.
Definition nonneg (i : step) : Prop := match i with KickGauge dt => 0 <= dt | KickQuark dt => 0 <= dt | Drift dt => 0.1 <= dt end.
Lemma pushing_along n kg kq l m : 0 <= kg -> 0 <= kq -> Forall nonneg l -> every_link n special_unitary (load m v_conf) ->
  (exists h, 1 <= h /\ every_link n (fun x => meq x (diagD h)) (load m v_H)) -> exact_along n (pushing kg) (pushing kq) l m.
Proof.
  intros Kg Kq. revert m. induction l as [|i l IH]; intros m NN U (h & Hh & D); [exact I|]. apply Forall_cons_iff in NN. destruct NN as [N1 N2].
  assert (Z : forall dt x, 0.1 <= dt -> meq x (diagD h) -> exact_zone (mscale (RtoC dt) x)).
  { intros dt x Hd E. apply (ExpMain.exact_zone_proper (diagD (dt * h))); [|apply diagD_zone; nra].
    intros a b Ha Hb. unfold mscale. rewrite (E a b Ha Hb). unfold diagD, mscale. rewrite RtoC_mult. ring. }
  split.
  { destruct i as [dt|dt|dt]; auto. intros iv mu H1 H2. left. apply Z; [exact N1|now apply D]. }
  pose proof (step_state n (pushing kg) (pushing kq) (pushing_links n kg) (pushing_links n kq) i m) as [S1 S2].
  apply IH; [exact N2| |].
  - apply (every_proper n _ (fst (runi (pushing kg) (pushing kq) i (state m)))); [intros x y E; now rewrite E|apply feq_sym; exact S1|].
    destruct i as [dt|dt|dt]; [exact U|exact U|]. intros iv mu H1 H2. cbn [runi driftv fst state]. apply su_mul; [|now apply U].
    apply exv_su; [|left; apply Z; [exact N1|now apply D]]. apply ht_neg. apply (ht_proper (diagD h)); [symmetry; now apply D|apply diagD_ht].
  - assert (K : forall k dt, 0 <= k -> 0 <= dt -> exists h', 1 <= h' /\ every_link n (fun x => meq x (diagD h')) (snd (kickv (pushing k) dt (state m)))).
    { intros k dt Hk Hd. exists (h + dt * k). split; [nra|]. intros iv mu H1 H2 a b Ha Hb. cbn [kickv snd state fst]. unfold msub, mscale at 1.
      rewrite (pushing_const n k _ U iv mu H1 H2 a b Ha Hb), (D iv mu H1 H2 a b Ha Hb). unfold diagD, mscale. apply injective_projections; cbn; ring. }
    assert (T : forall i', (exists h', 1 <= h' /\ every_link n (fun x => meq x (diagD h')) (snd (runi (pushing kg) (pushing kq) i' (state m)))) ->
      feq n (snd (state (do_step n (pushing kg) (pushing kq) i m))) (snd (runi (pushing kg) (pushing kq) i' (state m))) ->
      exists h', 1 <= h' /\ every_link n (fun x => meq x (diagD h')) (load (do_step n (pushing kg) (pushing kq) i m) v_H)).
    { intros i' (h' & A & B) E. exists h'. split; [exact A|]. intros iv mu H1 H2. etransitivity; [exact (E iv mu H1 H2)|now apply B]. }
    apply (T i); [|exact S2]. destruct i as [dt|dt|dt]; cbn [runi nonneg] in *; [now apply K|now apply K|]. exists h. split; [exact Hh|exact D].
Qed.
(** the memory where all the links are the identity, and the momenta diag(h,-h,0) *)
Definition start (h : R) : mem := fun p => match p with
  | [j; i; _; _; 0] => mid i j | [j; i; _; _; 1] => diagD h i j | _ => RtoC 0 end%nat.
Lemma start_ok n h : every_link n special_unitary (load (start h) v_conf) /\ every_link n hermitian_traceless (load (start h) v_H) /\
  every_link n (fun x => meq x (diagD h)) (load (start h) v_H).
Proof.
  split; [|split]; intros iv mu H1 H2; [apply su_1|apply (diagD_ht h)|intros i j _ _; reflexivity].
Qed.
Lemma case_nonneg : Forall nonneg (schedule 8 2 3).
Proof.
  unfold schedule, gauge_schedule, omelyan, omelyan_lambda. cbn [seq flat_map app Nat.eqb Nat.sub INR].
  repeat (apply Forall_cons; [cbn [nonneg]; lra|]). apply Forall_nil.
Qed.
Lemma case_along n : exact_along n (pushing 1) (pushing 2) (schedule 8 2 3) (start 1) /\ exact_along n (pushing 0) (pushing 0) (schedule 8 2 3) (start 1).
Proof.
  destruct (start_ok n 1) as (A & B & D). split; (apply pushing_along; [lra|lra|apply case_nonneg|exact A|exists 1; split; [lra|exact D]]).
Qed.
Lemma no_push n : constant_force n (pushing 0) (fun _ _ _ _ => RtoC 0).
Proof. intros U H iv mu H1 H2 i j Hi Hj. rewrite (pushing_const n 0 U H iv mu H1 H2 i j Hi Hj). unfold mscale. ring. Qed.
