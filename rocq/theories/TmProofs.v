(** The routines compute the operators of TmSpec *)
From Coq Require Import Reals Lra Lia List Arith.
From Coquelicot Require Import Complex.
From Verif Require Import MatSpec MatAlg DiracProofs DiracModel DiracSpec TmModel TmSpec.
From Verif Require StagSpec.
Import ListNotations.
Open Scope C_scope.
Set Bullet Behavior "Strict Subproofs".

Lemma wr_same a X v m : wr a X v m a X = v. Proof. unfold wr. rewrite !Nat.eqb_refl. reflexivity. Qed.
Lemma wr_other a X v m a' X' : a' <> a \/ X' <> X -> wr a X v m a' X' = m a' X'.
Proof. intros H. unfold wr. destruct (Nat.eqb_spec a' a); [destruct (Nat.eqb_spec X' X); [lia|reflexivity]|reflexivity]. Qed.
(** an operation which changes only one site of one object *)
Definition frame1 (out X : nat) (o : smem -> smem) : Prop := forall m a x, a <> out \/ x <> X -> o m a x = m a x.
Lemma frame1_wr out X v : frame1 out X (fun m => wr out X (v m) m).
Proof. intros m a x H. apply wr_other; exact H. Qed.
Lemma frame1_fold {A} out X (f : A -> smem -> smem) l : (forall k, frame1 out X (f k)) -> frame1 out X (fun m => fold_left (fun m k => f k m) l m).
Proof. intros H. induction l; intros m a' x Hx; cbn [fold_left]; [reflexivity|]. rewrite IHl by exact Hx. apply H. exact Hx. Qed.

(** ** parallel loops *)
Definition local_val (out X : nat) (v : smem -> nat -> cvec) : Prop :=
  forall m m', (forall a x, a <> out -> m a x = m' a x) -> m out X = m' out X -> forall s, (s < 4)%nat -> veq (v m s) (v m' s).
Lemma pars n ks body out (v : nat -> smem -> nat -> cvec) : StagSpec.order n ks ->
  (forall X, frame1 out X (body X)) ->
  (forall X, (X < n)%nat -> forall m s, (s < 4)%nat -> veq (body X m out X s) (v X m s)) ->
  (forall X, (X < n)%nat -> local_val out X (v X)) ->
  sets_obj n (PARs ks body) out (fun m X => v X m).
Proof.
  intros [ND Hk] Hf Hv Hl.
  assert (G : forall l, NoDup l -> (forall k, In k l -> (k < n)%nat) -> forall m,
    (forall X, In X l -> forall s, (s < 4)%nat -> veq (PARs l body m out X s) (v X m s)) /\
    (forall a x, a <> out \/ ~ In x l -> PARs l body m a x = m a x)).
  { induction l as [|k0 l IH]; intros N B m; [split; [intros ? []|reflexivity]|].
    apply NoDup_cons_iff in N. destruct N as [N0 N].
    destruct (IH N ltac:(intros; apply B; now right) (body k0 m)) as [I1 I2]. unfold PARs in *. cbn [fold_left]. split.
    - intros X [<-|HX] s Hs i Hi.
      + rewrite I2 by auto. apply Hv; auto. apply B; now left.
      + rewrite (I1 X HX s Hs i Hi). apply Hl; auto.
        * apply B; now right.
        * intros a x Ha. apply Hf; auto.
        * apply Hf. right. intros ->. contradiction.
    - intros a x Hx. rewrite I2; [apply Hf|]; destruct Hx as [Hx|Hx]; auto; right; cbn in Hx; tauto || (intros ->; tauto). }
  intros m. destruct (G ks ND ltac:(intros; apply Hk; assumption) m) as [G1 G2]. split.
  - intros x Hx s Hs. apply G1; [apply Hk; exact Hx|exact Hs].
  - intros a x H. apply G2. destruct H; [auto|]. right. rewrite Hk. lia.
Qed.

(** ** the hopping of one direction *)
Lemma frame1_color out X id v : frame1 out X (fun m => wr_color out X id (v m) m).
Proof. intros m a x H. apply wr_other; exact H. Qed.
Lemma frame_comp out X f g : frame1 out X f -> frame1 out X g -> frame1 out X (fun m => g (f m)).
Proof. intros F G m a x H. rewrite G, F by exact H. reflexivity. Qed.
Ltac fr := intros ? ? ? ?; unfold color_summassign, color_subtassign, color_isummassign, color_isubtassign, wr_color;
  repeat rewrite wr_other by assumption; reflexivity.
Lemma frame_forward out X inp Xup U anis mu : frame1 out X (hop_forward out X inp Xup U anis mu).
Proof. unfold hop_forward. destruct mu as [|[|[|mu]]]; cbv zeta; fr. Qed.
Lemma frame_backward out X inp Xdw U anis mu : frame1 out X (hop_backward out X inp Xdw U anis mu).
Proof. unfold hop_backward. destruct mu as [|[|[|mu]]]; cbv zeta; fr. Qed.

Ltac spins := repeat match goal with s : nat, H : (?s < 4)%nat |- _ => is_var s; destruct s as [|[|[|[|]]]]; try lia; clear H end.
Ltac wrs := unfold color_summassign, color_subtassign, color_isummassign, color_isubtassign, wr_color; rewrite !wr_same; unfold put; cbn [Nat.eqb].
Lemma anis_factor anis mu t c : anis_prod anis mu t c = RtoC (factor anis mu) * t c.
Proof. unfold anis_prod, factor. destruct anis; [destruct mu; cbn [Nat.ltb Nat.leb]; unfold color_prodassign_double|]; ring. Qed.
Lemma RtoC_m1 : RtoC (-1) = - RtoC 1.
Proof. rewrite <- RtoC_opp. f_equal; lra. Qed.
Lemma pair_m1 : ((-1)%R, 0%R) = - RtoC 1. Proof. apply injective_projections; cbn; ring. Qed.
Lemma pair_mi : (0%R, (-1)%R) = - Ci. Proof. apply injective_projections; cbn; ring. Qed.
Lemma pair_i : (0%R, 1%R) = Ci. Proof. reflexivity. Qed.
Lemma pair_1 : (1%R, 0%R) = RtoC 1. Proof. reflexivity. Qed.
Lemma ii : Ci * Ci = - RtoC 1. Proof. apply injective_projections; cbn; ring. Qed.
Ltac gams := unfold spin, gam, gam5, den, dsub, dadd, did, base_gamma, base_gamma_table, iGammaOfMu; cbn [Nat.ltb Nat.leb nth init_dirac pos entr csum Nat.eqb];
  rewrite ?pair_m1, ?pair_mi, ?pair_i, ?pair_1.
Lemma forward_ok out X inp Xup U anis mu m s c : (mu < 4)%nat -> (s < 4)%nat -> (c < 3)%nat ->
  hop_forward out X inp Xup U anis mu m out X s c =
  m out X s c + RtoC (factor anis mu) * spin (dsub did (gam mu)) (fun t => mvec U (m inp Xup t)) s c.
Proof.
  intros Hmu Hs Hc. unfold hop_forward. set (up := m inp Xup). clearbody up.
  pose proof ii as I2.
  destruct mu as [|[|[|[|]]]]; try lia; cbv zeta; spins; wrs; gams;
    unfold color_summ, color_subt, color_isumm, color_isubt; rewrite ?anis_factor; unfold unsafe_su3_prod_color, color_summ, color_subt, color_isumm, color_isubt, mvec; cbn [csum];
    ring [I2].
Qed.
Lemma backward_ok out X inp Xdw U anis mu m s c : (mu < 4)%nat -> (s < 4)%nat -> (c < 3)%nat ->
  hop_backward out X inp Xdw U anis mu m out X s c =
  m out X s c + RtoC (factor anis mu) * spin (dadd did (gam mu)) (fun t => mvec (dag U) (m inp Xdw t)) s c.
Proof.
  intros Hmu Hs Hc. unfold hop_backward. set (dw := m inp Xdw). clearbody dw.
  pose proof ii as I2.
  destruct mu as [|[|[|[|]]]]; try lia; cbv zeta; spins; wrs; gams;
    unfold color_summ, color_subt, color_isumm, color_isubt; rewrite ?anis_factor; unfold unsafe_su3_dag_prod_color, color_summ, color_subt, color_isumm, color_isubt, mvec, dag; cbn [csum];
    ring [I2].
Qed.

(** ** loop on the directions *)
Section Hops.
Variables (out X inp : nat) (nup ndw : nat -> nat) (Uf Ub : nat -> cmat) (anis : option R).
Hypothesis Hd : out <> inp.
Definition dir_loop (m : smem) : smem :=
  fold_left (fun m mu => hop_backward out X inp (ndw mu) (Ub mu) anis mu (hop_forward out X inp (nup mu) (Uf mu) anis mu m)) (seq 0 4) m.
Lemma frame_dir : frame1 out X dir_loop.
Proof.
  apply (frame1_fold out X (fun mu m => hop_backward out X inp (ndw mu) (Ub mu) anis mu (hop_forward out X inp (nup mu) (Uf mu) anis mu m))).
  intros mu. apply (frame_comp out X); [apply frame_forward|apply frame_backward].
Qed.
Lemma dir_ok m s c : (s < 4)%nat -> (c < 3)%nat -> dir_loop m out X s c = m out X s c +
  csum 4 (fun mu => RtoC (factor anis mu) * (spin (dsub did (gam mu)) (fun t => mvec (Uf mu) (m inp (nup mu) t)) s c
                          + spin (dadd did (gam mu)) (fun t => mvec (dag (Ub mu)) (m inp (ndw mu) t)) s c)).
Proof.
  intros Hs Hc. unfold dir_loop. cbn [fold_left seq].
  assert (F : forall mu m a x, a <> out -> hop_forward out X inp (nup mu) (Uf mu) anis mu m a x = m a x) by (intros; apply frame_forward; auto).
  assert (B : forall mu m a x, a <> out -> hop_backward out X inp (ndw mu) (Ub mu) anis mu m a x = m a x) by (intros; apply frame_backward; auto).
  do 4 (rewrite backward_ok, forward_ok by (assumption || lia); rewrite F by auto; rewrite ?B, ?F by auto).
  repeat first [rewrite B by auto | rewrite F by auto]. cbn [csum]. ring.
Qed.
End Hops.
Section Loops.
Variables (n : nat) (sched : nat -> list nat).
Hypothesis Hs : forall l, StagSpec.order n (sched l).

Lemma g5_at f x s c : (s < 4)%nat -> g5 f x s c = if Nat.ltb s 2 then f x s c else - f x s c.
Proof. intros H. unfold g5. spins; cbn [Nat.ltb Nat.leb]; gams; ring. Qed.
Lemma tmQ_ok nup ndw out conf kappa anis mass inp : out <> inp ->
  sets_obj n (apply_tmQ sched nup ndw out conf kappa anis mass inp) out (fun m => tmQ nup ndw conf kappa anis mass (m inp)).
Proof.
  intros Hd. unfold apply_tmQ.
  match goal with |- sets_obj _ (PARs _ ?b) _ _ => set (body := b) end.
  apply (pars n (sched 0%nat) body out (fun X m => tmQ nup ndw conf kappa anis mass (m inp) X)); [apply Hs| | |].
  - intros X m a x H. unfold body. rewrite wr_other by exact H.
    change (dir_loop out X inp (nup X) (ndw X) (conf X) (fun mu => conf (ndw X mu) mu) anis (spincolor_put_to_zero out X m) a x = m a x).
    rewrite frame_dir by exact H. apply wr_other. exact H.
  - intros X _ m s Hss c Hc. unfold body. cbv zeta. rewrite wr_same.
    match goal with |- context [fold_left ?f ?l ?z] => change (fold_left f l z) with (dir_loop out X inp (nup X) (ndw X) (conf X) (fun mu => conf (ndw X mu) mu) anis z) end.
    set (m1 := dir_loop _ _ _ _ _ _ _ _ _).
    assert (E0 : m1 out X s c = hop_lx nup ndw conf anis (m inp) X s c).
    { unfold m1. rewrite dir_ok by assumption. unfold spincolor_put_to_zero. rewrite wr_same. unfold hop_lx, hops.
      rewrite Cplus_0_l. apply csum_ext. intros mu _. do 2 (rewrite wr_other by auto). reflexivity. }
    assert (E1 : m1 inp X = m inp X).
    { unfold m1. rewrite frame_dir by auto. apply wr_other. auto. }
    rewrite E0, E1. clear E0 E1 m1 body. unfold tmQ, tmD, diag, sadd, sscale. rewrite g5_at by exact Hss. rewrite g5_at by exact Hss.
    destruct (hop_lx nup ndw conf anis (m inp) X s c) as [o1 o2]. destruct (m inp X s c) as [i1 i2].
    destruct (Nat.ltb s 2); apply injective_projections; unfold Cminus, Copp, Cplus, Cmult, RtoC, Ci; cbn [fst snd]; lra.
  - intros X _ m m' H _ s Hss c Hc. assert (E : m inp = m' inp) by (apply FunctionalExtensionality.functional_extensionality; intros; apply H; auto). rewrite E. reflexivity.
Qed.
Lemma hop_eo_ok l nup ndw p out conf anis inp : out <> inp ->
  sets_obj n (tmn2Deo_or_tmn2Doe_eos sched l nup ndw p out conf anis inp) out (fun m => hop_eo nup ndw conf anis p (m inp)).
Proof.
  intros Hd. unfold tmn2Deo_or_tmn2Doe_eos.
  match goal with |- sets_obj _ (PARs _ ?b) _ _ => set (body := b) end.
  apply (pars n (sched l) body out (fun X m => hop_eo nup ndw conf anis p (m inp) X)); [apply Hs| | |].
  - intros X m a x H. unfold body.
    change (dir_loop out X inp (nup p X) (ndw p X) (conf p X) (fun mu => conf (1 - p)%nat (ndw p X mu) mu) anis (spincolor_put_to_zero out X m) a x = m a x).
    rewrite frame_dir by exact H. apply wr_other. exact H.
  - intros X _ m s Hss c Hc. unfold body. cbv zeta.
    match goal with |- context [fold_left ?f ?l ?z] => change (fold_left f l z) with (dir_loop out X inp (nup p X) (ndw p X) (conf p X) (fun mu => conf (1 - p)%nat (ndw p X mu) mu) anis z) end.
    rewrite dir_ok by assumption. unfold spincolor_put_to_zero. rewrite wr_same. unfold hop_eo, hops.
    rewrite Cplus_0_l. apply csum_ext. intros mu _. do 2 (rewrite wr_other by auto). reflexivity.
  - intros X _ m m' H _ s Hss c Hc. assert (E : m inp = m' inp) by (apply FunctionalExtensionality.functional_extensionality; intros; apply H; auto). rewrite E. reflexivity.
Qed.

(** ** diagonal *)
Lemma frame_diag out inp z X : frame1 out X (diag_prod out inp z X).
Proof. intros m a x H. unfold diag_prod. cbn [fold_left seq]. unfold comp_prod at 1, wr_color at 1. do 11 (rewrite wr_other by exact H; unfold comp_prod at 1, wr_color at 1). apply wr_other; exact H. Qed.
Lemma diag_prod_ok out inp z X m s c : out <> inp -> (s < 4)%nat -> (c < 3)%nat ->
  diag_prod out inp z X m out X s c = m inp X s c * (if Nat.ltb s 2 then z else Cconj z).
Proof.
  intros Hd H Hc. unfold diag_prod. cbn [fold_left seq].
  assert (W0 : forall id ic y m0, s <> id \/ c <> ic -> comp_prod out inp X ic id y m0 out X s c = m0 out X s c).
  { intros id ic y m0 N. unfold comp_prod, wr_color. rewrite wr_same. unfold put. destruct (Nat.eqb_spec s id) as [->|]; [|reflexivity].
    destruct (Nat.eqb_spec c ic); [lia|reflexivity]. }
  assert (W1 : forall y m0, comp_prod out inp X c s y m0 out X s c = m0 inp X s c * y).
  { intros y m0. unfold comp_prod, wr_color. rewrite wr_same. unfold put. rewrite !Nat.eqb_refl. reflexivity. }
  assert (W2 : forall id ic y m0, comp_prod out inp X ic id y m0 inp X = m0 inp X) by (intros; unfold comp_prod, wr_color; apply wr_other; auto).
  spins; (destruct c as [|[|[|]]]; [..|lia]); do 12 try rewrite W0 by lia; rewrite W1, ?W2; reflexivity.
Qed.
Lemma Ci_conj : Cconj Ci = - Ci. Proof. apply injective_projections; cbn; ring. Qed.
Lemma diag_spec kappa mu f x s c : (s < 4)%nat -> diag kappa mu f x s c = f x s c * (if Nat.ltb s 2 then (1 / (2 * kappa), mu)%R else (1 / (2 * kappa), - mu)%R).
Proof.
  intros H. unfold diag, sadd, sscale. rewrite g5_at by exact H. destruct (f x s c) as [a b].
  destruct (Nat.ltb s 2); apply injective_projections; unfold Copp, Cplus, Cmult, RtoC, Ci; cbn [fst snd]; ring.
Qed.
Lemma diag_loop l out inp z : out <> inp ->
  sets_obj n (PARs (sched l) (diag_prod out inp z)) out (fun m x s c => m inp x s c * (if Nat.ltb s 2 then z else Cconj z)).
Proof.
  intros Hd. apply (pars n (sched l) (diag_prod out inp z) out (fun X m s c => m inp X s c * (if Nat.ltb s 2 then z else Cconj z))).
  - apply Hs.
  - apply frame_diag.
  - intros X _ m s Hss c Hc. apply diag_prod_ok; assumption.
  - intros X _ m m' H _ s Hss c Hc. rewrite H by auto. reflexivity.
Qed.
Lemma Dee_ok l out kappa mu inp : out <> inp -> sets_obj n (tmDee_or_oo_eos sched l out kappa mu inp) out (fun m => diag kappa mu (m inp)).
Proof.
  intros Hd m. destruct (diag_loop l out inp (1 / (2 * kappa), mu)%R Hd m) as [A B]. split; [|exact B].
  intros x Hx s Hss c Hc. unfold tmDee_or_oo_eos. rewrite (A x Hx s Hss c Hc). rewrite diag_spec by exact Hss. reflexivity.
Qed.
Lemma inv_diag_spec kappa mu f x s c : (s < 4)%nat -> inv_diag kappa mu f x s c = let a := (1 / (2 * kappa))%R in let nrm := (a * a + mu * mu)%R in
  f x s c * (if Nat.ltb s 2 then (a / nrm, - mu / nrm)%R else (a / nrm, mu / nrm)%R).
Proof.
  intros H. unfold inv_diag, sscale. rewrite diag_spec by exact H. cbv zeta. set (a := (1 / (2 * kappa))%R). clearbody a. destruct (f x s c) as [u v].
  destruct (Nat.ltb s 2); apply injective_projections; unfold Rdiv, Cmult, RtoC; cbn [fst snd]; ring.
Qed.
Lemma inv_ok l out kappa mu inp : out <> inp -> sets_obj n (inv_tmDee_or_oo_eos sched l out kappa mu inp) out (fun m => inv_diag kappa mu (m inp)).
Proof.
  intros Hd m. unfold inv_tmDee_or_oo_eos. cbv zeta.
  match goal with |- context [diag_prod _ _ ?z] => destruct (diag_loop l out inp z Hd m) as [A B] end. split; [|exact B].
  intros x Hx s Hss c Hc. rewrite (A x Hx s Hss c Hc). rewrite inv_diag_spec by exact Hss. cbv zeta. destruct (Nat.ltb s 2); [reflexivity|]. f_equal. unfold Cconj. cbn [fst snd]. f_equal.
  unfold Rdiv. ring.
Qed.
Lemma inv_diag_diag kappa mu f x s c : kappa <> 0%R -> (s < 4)%nat -> diag kappa mu (inv_diag kappa mu f) x s c = f x s c.
Proof.
  intros Hk H. rewrite diag_spec by exact H. rewrite inv_diag_spec by exact H. cbv zeta.
  assert (K : (1 / (2 * kappa) <> 0)%R) by (unfold Rdiv; apply Rmult_integral_contrapositive; split; [lra|apply Rinv_neq_0_compat; lra]).
  set (a := (1 / (2 * kappa))%R) in *. clearbody a. assert (N : (a * a + mu * mu <> 0)%R) by nra.
  destruct (f x s c) as [u v]. destruct (Nat.ltb s 2); apply injective_projections; unfold Copp, Cplus, Cmult, RtoC, Ci; cbn [fst snd]; field; exact N.
Qed.
Lemma diag_inv_diag kappa mu f x s c : kappa <> 0%R -> (s < 4)%nat -> inv_diag kappa mu (diag kappa mu f) x s c = f x s c.
Proof.
  intros Hk H. etransitivity; [|apply (inv_diag_diag kappa mu f x s c Hk H)]. rewrite diag_spec by exact H. rewrite !inv_diag_spec by exact H. cbv zeta. rewrite diag_spec by exact H.
  destruct (Nat.ltb s 2); ring.
Qed.

(** ** K_oo *)
Lemma together_ok l out temp : out <> temp ->
  sets_obj n (tmDkern_eoprec_eos_put_together_and_include_gamma5 sched l out temp) out (fun m => g5 (sadd (m temp) (sscale (- (1 / 4))%R (m out)))).
Proof.
  intros Hd. unfold tmDkern_eoprec_eos_put_together_and_include_gamma5.
  match goal with |- sets_obj _ (PARs _ ?b) _ _ => set (body := b) end.
  apply (pars n (sched l) body out (fun X m => g5 (sadd (m temp) (sscale (- (1 / 4))%R (m out))) X)); [apply Hs| | |].
  - intros X m a x H. unfold body. cbn [fold_left seq]. unfold wr_color. repeat rewrite wr_other by exact H. reflexivity.
  - intros X _ m s Hss c Hc. unfold body. cbn [fold_left seq]. unfold wr_color.
    rewrite g5_at by exact Hss. unfold sadd, sscale.
    repeat (rewrite !wr_same || (rewrite (wr_other out X _ _ temp X) by auto)).
    unfold put. spins; cbn [Nat.eqb Nat.add Nat.ltb Nat.leb]; destruct (m temp X _ c) as [u v], (m out X _ c) as [u' v'];
      apply injective_projections; unfold Cminus, Copp, Cplus, Cmult, RtoC; cbn [fst snd]; lra.
  - intros X _ m m' H E s Hss c Hc. rewrite !g5_at by exact Hss. unfold sadd, sscale. rewrite E, H by auto. reflexivity.
Qed.
End Loops.
