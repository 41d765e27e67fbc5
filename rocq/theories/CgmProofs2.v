(** The multishift conjugate gradient returns, when the operator is symmetric and positive and the shifts are not negative *)
From Coq Require Import Reals List ZArith Lra Lia Psatz Bool FunctionalExtensionality.
From Verif Require Import CgModel CgSpec CgAlg CgmProofs.
Import ListNotations.
Open Scope R_scope.

Section Total.
Variables (N : nat) (f : R -> rvec -> rvec) (niter : Z) (source : rvec).
Notation A := (f 0).
Hypothesis Asym : symmetric_op N A.
Hypothesis Apos : positive_op N A.
Hypothesis Hsrc : vnorm2 N source <> 0.
Hypothesis HN : (Z.of_nat N < niter)%Z.
Notation rk k := (fst (rp N A source k)).
Notation pk k := (snd (rp N A source k)).
Notation step := (cgm_iteration N f source).
Notation loop := (cgm_loop N f niter source).

Definition hgood (h : sh) : Prop := 0 <= shift h /\ 0 < residue_of h /\ 0 < zas h <= zps h.
Definition mgood (h : sh) : Prop := 0 <= shift h /\ 0 < residue_of h /\ (run_flag h = true -> 0 < zfs h <= zas h) /\ (run_flag h = false -> 0 < zas h <= zps h).
Definition good (k : nat) (st : cgm_state) : Prop :=
  m_r st = rk k /\ m_p st = pk k /\ m_rr st = rdot N (rk k) (rk k) /\ m_iter st = Z.of_nat k /\
  ((betaa st = 1 /\ m_alpha st = 0) \/ (betaa st < 0 /\ 0 <= m_alpha st)) /\ Forall hgood (m_sh st).

Lemma first_total : forall b a b' h, (b = 1 /\ a = 0) \/ (b < 0 /\ 0 <= a) -> b' < 0 -> hgood h -> exists h', sh_first b' b a h = Some h' /\ mgood h'.
Proof.
  intros b a b' h Hb Hb' (H1 & H2 & H3). unfold sh_first. destruct (run_flag h) eqn:Hr.
  2:{ exists h. split; [ reflexivity | ]. unfold mgood. rewrite Hr. repeat split; try assumption; try discriminate; tauto. }
  destruct Req_EM_T as [ | Hz]; [ lra | ]. set (den := b' * a * (1 - zas h / zps h) + b * (1 - shift h * b')).
  assert (0 < b / den <= 1 /\ den <> 0) as [Hq Hd].
  { assert (0 <= 1 - zas h / zps h) as Hq.
    { apply Rmult_le_reg_r with (zps h); [ lra | ]. unfold Rdiv. rewrite Rmult_0_l, Rmult_minus_distr_r, Rmult_assoc, Rinv_l by lra. lra. }
    destruct Hb as [[-> ->] | [Hb Ha]].
    - unfold den. replace (b' * 0 * (1 - zas h / zps h) + 1 * (1 - shift h * b')) with (1 - shift h * b') by ring.
      assert (1 <= 1 - shift h * b') as P by nra. split; [ | lra ]. split; [ apply Rdiv_lt_0_compat; lra | ].
      apply Rmult_le_reg_r with (1 - shift h * b'); [ lra | ]. unfold Rdiv. rewrite Rmult_assoc, Rinv_l by lra. lra.
    - assert (den <= b) as P.
      { unfold den. assert (b' * a * (1 - zas h / zps h) <= 0) by (assert (0 <= a * (1 - zas h / zps h)) by (apply Rmult_le_pos; assumption); nra).
        assert (0 <= - (shift h * b')) by nra. nra. }
      split; [ | lra ]. replace (b / den) with (- b / - den) by (field; lra). split; [ apply Rdiv_lt_0_compat; lra | ].
      apply Rmult_le_reg_r with (- den); [ lra | ]. unfold Rdiv. rewrite Rmult_assoc, Rinv_l by lra. lra. }
  destruct Req_EM_T as [ | _]; [ contradiction | ]. eexists. split; [ reflexivity | ]. unfold mgood. cbn [shift residue_of run_flag zfs zas zps].
  repeat split; try assumption; try (intros; discriminate); try (apply Rmult_lt_0_compat; lra); intros; nra.
Qed.
Lemma second_total : forall b a r h, b < 0 -> mgood h -> exists h', sh_second b a r h = Some h' /\ hgood h'.
Proof.
  intros b a r h Hb (H1 & H2 & H3 & H4). unfold sh_second. destruct (run_flag h) eqn:Hr.
  - specialize (H3 eq_refl). destruct Req_EM_T as [e | _]; [ exfalso; nra | ]. eexists; split; [ reflexivity | ].
    unfold hgood; cbn. repeat split; lra.
  - exists h. split; [ reflexivity | ]. specialize (H4 eq_refl). unfold hgood. tauto.
Qed.
Lemma check_good : forall rr h, hgood h -> hgood (sh_check rr (vnorm2 N source) h) /\ (rr = 0 -> run_flag (sh_check rr (vnorm2 N source) h) = false).
Proof.
  intros rr h H. unfold sh_check. destruct (run_flag h) eqn:Hr.
  - split; [ exact H | ]. intros ->. cbn [run_flag]. destruct Rlt_dec as [L | L]; [ reflexivity | ].
    exfalso. apply L. unfold Rdiv. rewrite !Rmult_0_l. apply H.
  - split; [ exact H | intros _; exact Hr ].
Qed.
Lemma step_total : forall k st, nz N A source (S k) -> good k st ->
  exists st', step st = Some st' /\ good (S k) st' /\ (rdot N (rk (S k)) (rk (S k)) = 0 -> running st' = false).
Proof.
  intros k st Hnz (Er & Ep & Err & Ei & Hb & Hh).
  pose proof (cg_alpha_pos N A Asym Apos source _ Hnz k ltac:(lia)) as Ha. rewrite rdot_sym in Ha.
  assert (0 < rdot N (rk k) (rk k)) as Hd by (pose proof (Hnz k ltac:(lia)); pose proof (rdot_pos N (rk k)); lra).
  unfold cgm_iteration. rewrite Er, Ep, Err, Ei. destruct Req_EM_T as [ | _]; [ lra | ].
  set (b' := - rdot N (rk k) (rk k) / rdot N (pk k) (A (pk k))).
  assert (b' < 0) as Hb'.
  { unfold b'. replace (- rdot N (rk k) (rk k) / rdot N (pk k) (A (pk k))) with (- (rdot N (rk k) (rk k) / rdot N (pk k) (A (pk k)))) by (field; lra).
    assert (0 < rdot N (rk k) (rk k) / rdot N (pk k) (A (pk k))) by (apply Rdiv_lt_0_compat; assumption). lra. }
  assert ((fun i => rk k i + A (pk k) i * b') = rk (S k)) as Er'.
  { apply functional_extensionality. intros i. rewrite r_S. unfold b', om. rewrite (rdot_sym N (A (pk k))). field. lra. }
  rewrite Er'.
  destruct (all_some_ok _ _ _ _ mgood _ Hh (fun h H => first_total _ _ _ h Hb Hb' H)) as (hs & -> & Hm).
  destruct Req_EM_T as [ | _]; [ lra | ].
  set (al := vnorm2 N (rk (S k)) / rdot N (rk k) (rk k)).
  destruct (all_some_ok _ _ _ _ hgood _ Hm (fun h H => second_total b' al (rk (S k)) h Hb' H)) as (hs' & -> & Hg).
  eexists. split; [ reflexivity | ]. split.
  - unfold good. cbn [m_r m_p m_rr m_iter betaa m_alpha m_sh]. split; [ reflexivity | split; [ | split; [ reflexivity | split; [ lia | split ] ] ] ].
    + apply functional_extensionality. intros i. pose proof (f_equal (fun g => g i) Er') as E. cbn beta in E. rewrite E, p_S. reflexivity.
    + right. split; [ assumption | ]. unfold al, Rdiv. apply Rmult_le_pos; [ apply rdot_pos | left; apply Rinv_0_lt_compat; assumption ].
    + rewrite Forall_map. eapply Forall_impl; [ | exact Hg ]. intros h H. apply check_good; assumption.
  - intros E. unfold running. cbn [m_sh]. unfold vnorm2 at 1. rewrite E. clear - Hg. induction Hg; cbn [map existsb]; [ reflexivity | ].
    rewrite (proj2 (check_good 0 x H) eq_refl), IHHg. reflexivity.
Qed.
Lemma loop_total : forall fuel k st, nz N A source (S k) -> good k st -> (niter <= Z.of_nat (fuel + k))%Z ->
  exists st', loop fuel st = Some st' /\ (m_iter st' <= Z.of_nat N)%Z.
Proof.
  induction fuel; intros k st Hnz Hg Hf; pose proof (cg_finite N A Asym Apos source _ Hnz) as B.
  - exfalso; lia.
  - destruct (step_total k st Hnz Hg) as (st' & E & Hg' & Hstop). cbn [cgm_loop]. rewrite E.
    assert (m_iter st' = Z.of_nat (S k)) as Ei by apply Hg'.
    destruct (running st') eqn:R; cbn [andb]; [ | exists st'; split; [ reflexivity | lia ] ].
    assert (nz N A source (S (S k))) as Hnz'.
    { intros j Hj. destruct (Nat.eq_dec j (S k)) as [-> | ]; [ | apply Hnz; lia ]. intros Z0. specialize (Hstop Z0). congruence. }
    pose proof (cg_finite N A Asym Apos source _ Hnz') as B'.
    destruct (Z.ltb_spec (m_iter st') niter); [ | lia ]. apply (IHfuel (S k)); [ assumption | assumption | lia ].
Qed.
Theorem cgm_total : forall shifts, (forall s res, In (s, res) shifts -> 0 <= s /\ 0 < res) ->
  exists sols, cgm_invert N f niter source shifts = Some sols.
Proof.
  intros shifts Hs. unfold cgm_invert. destruct Req_EM_T as [ | _]; [ contradiction | ].
  match goal with |- context [cgm_loop _ _ _ _ ?fu ?s] => set (fuel := fu); set (st := s) end.
  destruct (loop_total fuel 0 st) as (st' & -> & Hi).
  - intros k Hk. replace k with 0%nat by lia. exact Hsrc.
  - unfold good, st. cbn [m_r m_p m_rr m_iter betaa m_alpha m_sh]. repeat split; auto.
    rewrite Forall_map. apply Forall_forall. intros [s r] H. destruct (Hs _ _ H). unfold hgood; cbn. repeat split; lra.
  - unfold fuel. lia.
  - destruct (Z.eqb_spec (m_iter st') niter); [ lia | eauto ].
Qed.
End Total.
