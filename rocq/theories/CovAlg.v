(** Algebra of the covariant translations: adjoint, inverse, gauge covariance, positivity of the Laplace operators, and properties of the gaussian smearing *)
From Coq Require Import Reals Lra Lia List Arith ZArith Setoid.
From Coquelicot Require Import Complex.
From Verif Require Import MatSpec MatProofs MatProofs4 MatAlg DiracModel DiracSpec DiracProofs TmModel TmSpec TmProofs.
From Verif Require StagSpec.
From Verif Require Import StagProofs StagAlg StagAlg2 TmAlg TmAlg2 CovModel CovSpec CovProofs.
Import ListNotations.
Open Scope C_scope.
Set Bullet Behavior "Strict Subproofs".
Notation sdot := TmSpec.sdot.
Ltac pw := intros x Hx s Hs c Hc.

Section S.
Variables (n : nat) (nup ndw : nat -> nat -> nat).
Hypothesis L : lattice_lx n nup ndw.
Section U.
Variable U : nat -> nat -> cmat.
Notation T := (transl nup U).
Notation T' := (transl' ndw U).

Lemma T_adj mu f g : (mu < 4)%nat -> sdot n f (T mu g) = sdot n (T' mu f) g.
Proof.
  intros Hmu. rewrite !sdot_spdot. rewrite <- (csum_reindex n (fun x => nup x mu) (fun y => ndw y mu) (fun y => spdot (T' mu f y) (g y))).
  - apply csum_ext. intros x Hx. destruct (L x mu Hx Hmu) as (_ & _ & E & _). unfold transl, transl'. rewrite E. apply spdot_col.
  - intros x Hx. destruct (L x mu Hx Hmu) as (? & _ & ? & _). auto.
  - intros y Hy. destruct (L y mu Hy Hmu) as (_ & ? & _ & ?). auto.
Qed.
Lemma T'_adj mu f g : (mu < 4)%nat -> sdot n f (T' mu g) = sdot n (T mu f) g.
Proof. intros Hmu. rewrite sdot_sym, <- T_adj, <- sdot_sym by exact Hmu. reflexivity. Qed.
Lemma T_add mu f g : T mu (sadd f g) =[n]= sadd (T mu f) (T mu g).
Proof. pw. unfold transl, sadd, mvec. cbn [csum]. ring. Qed.
Lemma T'_add mu f g : T' mu (sadd f g) =[n]= sadd (T' mu f) (T' mu g).
Proof. pw. unfold transl', sadd, mvec. cbn [csum]. ring. Qed.
Lemma T_scal mu a f : T mu (sscale a f) =[n]= sscale a (T mu f).
Proof. pw. unfold transl, sscale, mvec. cbn [csum]. ring. Qed.
Lemma T'_scal mu a f : T' mu (sscale a f) =[n]= sscale a (T' mu f).
Proof. pw. unfold transl', sscale, mvec. cbn [csum]. ring. Qed.
Lemma T'T mu f : ulinks n U -> (mu < 4)%nat -> T' mu (T mu f) =[n]= f.
Proof.
  intros HU Hmu. pw. unfold transl', transl. destruct (L x mu Hx Hmu) as (_ & Hd & _ & E). rewrite E. rewrite <- mvec_mmul.
  rewrite (mvec_ext _ mid _ (f x s) c (unitary_l _ (HU _ _ Hd Hmu)) ltac:(intros ? ?; reflexivity) Hc). apply mvec_mid; exact Hc.
Qed.
Lemma TT' mu f : ulinks n U -> (mu < 4)%nat -> T mu (T' mu f) =[n]= f.
Proof.
  intros HU Hmu. pw. unfold transl', transl. destruct (L x mu Hx Hmu) as (_ & _ & E & _). rewrite E. rewrite <- mvec_mmul.
  rewrite (mvec_ext _ mid _ (f x s) c (HU _ _ Hx Hmu) ltac:(intros ? ?; reflexivity) Hc). apply mvec_mid; exact Hc.
Qed.
Lemma T_norm mu f : ulinks n U -> (mu < 4)%nat -> norm2 n (T mu f) = norm2 n f /\ norm2 n (T' mu f) = norm2 n f.
Proof.
  intros HU Hmu. unfold norm2. split.
  - rewrite T_adj by exact Hmu. rewrite (sdot_ext n _ f f f (T'T mu f HU Hmu) (seq_refl n f)). reflexivity.
  - rewrite T'_adj by exact Hmu. rewrite (sdot_ext n _ f f f (TT' mu f HU Hmu) (seq_refl n f)). reflexivity.
Qed.
Lemma sdot_dirs_r f dirs F : sdot n f (sum_dirs dirs F) = csum 4 (fun mu => if dirs mu then sdot n f (F mu) else RtoC 0).
Proof.
  unfold sum_dirs. rewrite (sdot_sum_r n f (fun mu x s c => if dirs mu then F mu x s c else RtoC 0)). apply csum_ext. intros mu _. destruct (dirs mu); [reflexivity|].
  transitivity (csum n (fun _ => RtoC 0 * RtoC 0)); [apply csum_ext; intros x _; unfold spdot, vdot; cbn [csum]; ring|]. rewrite csum_scal_l. ring.
Qed.
Lemma sdot_dirs_l f dirs F : sdot n (sum_dirs dirs F) f = csum 4 (fun mu => if dirs mu then sdot n (F mu) f else RtoC 0).
Proof.
  rewrite sdot_sym, sdot_dirs_r, csum_conj. apply csum_ext. intros mu _. destruct (dirs mu); [rewrite <- sdot_sym; reflexivity|apply Cconj_R].
Qed.
Lemma hop_herm mu f g : (mu < 4)%nat -> sdot n f (sadd (T mu g) (T' mu g)) = sdot n (sadd (T mu f) (T' mu f)) g.
Proof. intros Hmu. rewrite sdot_add_r, sdot_add_l, T_adj, T'_adj by exact Hmu. ring. Qed.
Lemma lapl_herm dirs f g : sdot n f (lapl nup ndw U dirs g) = sdot n (lapl nup ndw U dirs f) g.
Proof.
  unfold lapl. rewrite sdot_dirs_r, sdot_dirs_l. apply csum_ext. intros mu Hmu. destruct (dirs mu); [|reflexivity].
  unfold ssub. rewrite (sdot_add_r n f), (sdot_add_l n g), hop_herm, !sdot_scal_r, !sdot_scal_l, !Cconj_R by exact Hmu. reflexivity.
Qed.
Lemma hop_pos mu f : ulinks n U -> (mu < 4)%nat -> sdot n f (ssub (sadd (T mu f) (T' mu f)) (sscale (RtoC 2) f)) = - sdot n (ssub (T mu f) f) (ssub (T mu f) f).
Proof.
  intros HU Hmu. unfold ssub. rewrite !sdot_add_r, !sdot_add_l, !sdot_scal_r, !sdot_scal_l, !Cconj_R, ?sdot_add_r, ?sdot_scal_r.
  rewrite (T'_adj mu f f Hmu). rewrite (T_adj mu (T mu f) f Hmu), (sdot_ext n _ f f f (T'T mu f HU Hmu) (seq_refl n f)). rewrite RtoC_m1.
  replace (RtoC 2) with (RtoC 1 + RtoC 1) by (apply injective_projections; cbn; ring). ring.
Qed.
Lemma fst_sum k (f : nat -> C) : (forall mu, (mu < k)%nat -> snd (f mu) = 0%R /\ (0 <= fst (f mu))%R) -> snd (csum k f) = 0%R /\ (0 <= fst (csum k f))%R.
Proof.
  induction k as [|k IH]; intros H; cbn [csum]; [cbn; split; lra|]. destruct (IH ltac:(intros; apply H; lia)), (H k ltac:(lia)). unfold Cplus. cbn [fst snd]. split; lra.
Qed.
Lemma lapl_val dirs f : ulinks n U -> sdot n f (lapl nup ndw U dirs f) = - csum 4 (fun mu => if dirs mu then RtoC (norm2 n (ssub (T mu f) f)) else RtoC 0).
Proof.
  intros HU. unfold lapl. rewrite sdot_dirs_r. transitivity (csum 4 (fun mu => RtoC (-1) * (if dirs mu then RtoC (norm2 n (ssub (T mu f) f)) else RtoC 0))).
  - apply csum_ext. intros mu Hmu. destruct (dirs mu); [|ring]. rewrite (hop_pos mu f HU Hmu). destruct (sdot_pos n (ssub (T mu f) f)) as [P _]. unfold norm2. rewrite RtoC_m1.
    set (z := sdot n (ssub (T mu f) f) (ssub (T mu f) f)) in *. destruct z as [a b]. cbn [fst snd] in *. subst b. apply injective_projections; cbn; ring.
  - rewrite csum_scal_l, RtoC_m1. ring.
Qed.
(** the operator on two links is the square of the symmetric derivative *)
Lemma lapl2_sq dirs f : ulinks n U -> lapl2 nup ndw U dirs f =[n]= sum_dirs dirs (fun mu => symd nup ndw U mu (symd nup ndw U mu f)).
Proof.
  intros HU. unfold lapl2. apply sum_dirs_ext. intros mu Hmu. pw. unfold symd at 1. unfold sscale at 1, ssub at 1, sadd at 1 2. unfold sscale at 1. unfold sscale at 2. unfold ssub at 1. unfold sadd at 1. unfold sscale at 2.
  set (d := symd nup ndw U mu f).
  assert (E1 : T mu d x s c = RtoC (1 / 2) * (T mu (T mu f) x s c - f x s c)).
  { unfold d, symd. rewrite (T_scal mu _ _ x Hx s Hs c Hc). unfold sscale at 1. unfold ssub. rewrite (T_add mu _ _ x Hx s Hs c Hc). unfold sadd at 1. rewrite (T_scal mu _ _ x Hx s Hs c Hc). unfold sscale. rewrite (TT' mu f HU Hmu x Hx s Hs c Hc), RtoC_m1. ring. }
  assert (E2 : T' mu d x s c = RtoC (1 / 2) * (f x s c - T' mu (T' mu f) x s c)).
  { unfold d, symd. rewrite (T'_scal mu _ _ x Hx s Hs c Hc). unfold sscale at 1. unfold ssub. rewrite (T'_add mu _ _ x Hx s Hs c Hc). unfold sadd at 1. rewrite (T'_scal mu _ _ x Hx s Hs c Hc). unfold sscale. rewrite (T'T mu f HU Hmu x Hx s Hs c Hc), RtoC_m1. ring. }
  rewrite E1, E2, RtoC_m1. unfold sscale. replace (RtoC (1 / 4)) with (RtoC (1 / 2) * RtoC (1 / 2)) by (apply injective_projections; cbn; lra).
  replace (RtoC 2) with (RtoC 1 + RtoC 1) by (apply injective_projections; cbn; ring). ring.
Qed.
Lemma symd_anti mu f g : (mu < 4)%nat -> sdot n f (symd nup ndw U mu g) = - sdot n (symd nup ndw U mu f) g.
Proof.
  intros Hmu. unfold symd, ssub. rewrite sdot_scal_r, sdot_scal_l, sdot_add_r, sdot_add_l, sdot_scal_r, sdot_scal_l, !Cconj_R, T_adj, T'_adj, RtoC_m1 by exact Hmu. ring.
Qed.

(** ** gaussian smearing *)
Variable kappa : nat -> R.
Notation S1 := (smear1 nup ndw U kappa).
Lemma smear1_herm f g : sdot n f (S1 g) = sdot n (S1 f) g.
Proof.
  unfold smear1. rewrite sdot_scal_r, sdot_scal_l, sdot_add_r, sdot_add_l, Cconj_R. f_equal. f_equal. rewrite sdot_dirs_r, sdot_dirs_l. apply csum_ext. intros mu Hmu. destruct (negb _); [|reflexivity].
  rewrite sdot_scal_r, sdot_scal_l, Cconj_R, hop_herm by exact Hmu. reflexivity.
Qed.
Lemma iter_herm k : forall f g, sdot n f (Nat.iter k S1 g) = sdot n (Nat.iter k S1 f) g.
Proof.
  induction k as [|k IH]; intros f g; [reflexivity|]. change (sdot n f (S1 (Nat.iter k S1 g)) = sdot n (S1 (Nat.iter k S1 f)) g). rewrite smear1_herm, IH, iter_s. reflexivity.
Qed.
Lemma smear1_lin a f b g : S1 (sadd (sscale a f) (sscale b g)) =[n]= sadd (sscale a (S1 f)) (sscale b (S1 g)).
Proof.
  pw. unfold smear1, sum_dirs. unfold sscale, sadd. cbn [csum negb Nat.eqb]. unfold transl, transl', mvec. cbn [csum]. ring.
Qed.
Lemma iter_lin k a f b g : Nat.iter k S1 (sadd (sscale a f) (sscale b g)) =[n]= sadd (sscale a (Nat.iter k S1 f)) (sscale b (Nat.iter k S1 g)).
Proof.
  induction k as [|k IH]; [reflexivity|]. change (S1 (Nat.iter k S1 (sadd (sscale a f) (sscale b g))) =[n]= sadd (sscale a (S1 (Nat.iter k S1 f))) (sscale b (S1 (Nat.iter k S1 g)))).
  rewrite (smear1_ext n nup ndw U L kappa _ _ IH). apply smear1_lin.
Qed.
(** convexity *)
Lemma conv1 (A W Q w x : R) : (0 < W)%R -> (A * A <= W * Q)%R -> (0 <= w)%R -> ((A + w * x) * (A + w * x) <= (W + w) * (Q + w * (x * x)))%R.
Proof.
  intros HW HA Hw. assert (K : (0 <= W * x * x + Q - 2 * A * x)%R).
  { apply (Rmult_le_reg_l W); [exact HW|]. replace (W * (W * x * x + Q - 2 * A * x))%R with ((W * x - A) * (W * x - A) + (W * Q - A * A))%R by ring. pose proof (Rle_0_sqr (W * x - A)). unfold Rsqr in *. lra. }
  apply Rminus_le. replace ((A + w * x) * (A + w * x) - (W + w) * (Q + w * (x * x)))%R with (- ((W * Q - A * A) + w * (W * x * x + Q - 2 * A * x)))%R by ring.
  pose proof (Rmult_le_pos w _ Hw K). lra.
Qed.
Lemma conv7 (w1 w2 w3 x0 x1 y1 x2 y2 x3 y3 : R) : (0 <= w1)%R -> (0 <= w2)%R -> (0 <= w3)%R ->
  let N := (1 + 2 * (w1 + w2 + w3))%R in let S := (x0 + w1 * (x1 + y1) + w2 * (x2 + y2) + w3 * (x3 + y3))%R in
  (S * S <= N * (x0 * x0 + w1 * (x1 * x1 + y1 * y1) + w2 * (x2 * x2 + y2 * y2) + w3 * (x3 * x3 + y3 * y3)))%R.
Proof.
  intros H1 H2 H3 N S. pose proof (conv1 x0 1 (x0 * x0) w1 x1 ltac:(lra) ltac:(lra) H1) as A1.
  pose proof (conv1 _ (1 + w1) _ w1 y1 ltac:(lra) A1 H1) as A2. pose proof (conv1 _ (1 + w1 + w1) _ w2 x2 ltac:(lra) A2 H2) as A3. pose proof (conv1 _ (1 + w1 + w1 + w2) _ w2 y2 ltac:(lra) A3 H2) as A4.
  pose proof (conv1 _ (1 + w1 + w1 + w2 + w2) _ w3 x3 ltac:(lra) A4 H3) as A5. pose proof (conv1 _ (1 + w1 + w1 + w2 + w2 + w3) _ w3 y3 ltac:(lra) A5 H3) as A6. clear - A6. unfold N, S.
  match type of A6 with (?a <= ?b)%R => match goal with |- (?p <= ?q)%R => replace p with a by ring; replace q with b by ring; exact A6 end end.
Qed.
(** the norm of a field as a sum of squares *)
Fixpoint rsum (k : nat) (f : nat -> R) : R := match k with O => 0%R | S k => (rsum k f + f k)%R end.
Definition sq (z : C) : R := (fst z * fst z + snd z * snd z)%R.
Lemma fst_csum k f : fst (csum k f) = rsum k (fun x => fst (f x)).
Proof. induction k as [|k IH]; [reflexivity|]. cbn [csum rsum]. unfold Cplus. cbn [fst]. rewrite IH. reflexivity. Qed.
Lemma rsum_ext k f g : (forall x, (x < k)%nat -> f x = g x) -> rsum k f = rsum k g.
Proof. induction k as [|k IH]; intros H; [reflexivity|]. cbn [rsum]. rewrite IH by (intros; apply H; lia). rewrite H by lia. reflexivity. Qed.
Lemma rsum_le k f g : (forall x, (x < k)%nat -> (f x <= g x)%R) -> (rsum k f <= rsum k g)%R.
Proof. induction k as [|k IH]; intros H; [cbn; lra|]. cbn [rsum]. pose proof (IH ltac:(intros; apply H; lia)). pose proof (H k ltac:(lia)). lra. Qed.
Lemma rsum_add k f g : rsum k (fun x => f x + g x)%R = (rsum k f + rsum k g)%R.
Proof. induction k as [|k IH]; cbn [rsum]; [lra|]. rewrite IH. lra. Qed.
Lemma rsum_scal k a f : rsum k (fun x => a * f x)%R = (a * rsum k f)%R.
Proof. induction k as [|k IH]; cbn [rsum]; [lra|]. rewrite IH. lra. Qed.
Definition nrm (k : nat) (F : nat -> nat -> nat -> R) : R := rsum k (fun x => rsum 4 (fun s => rsum 3 (fun c => F x s c))).
Lemma norm2_nrm f : norm2 n f = nrm n (fun x s c => sq (f x s c)).
Proof.
  unfold norm2, sdot, nrm. rewrite fst_csum. apply rsum_ext. intros x _. rewrite fst_csum. apply rsum_ext. intros s _. rewrite fst_csum. apply rsum_ext. intros c _. unfold sq, Cmult, Cconj. cbn [fst snd]. ring.
Qed.
Lemma nrm_le k F G : (forall x s c, (x < k)%nat -> (s < 4)%nat -> (c < 3)%nat -> (F x s c <= G x s c)%R) -> (nrm k F <= nrm k G)%R.
Proof. intros H. apply rsum_le. intros x Hx. apply rsum_le. intros s Hs. apply rsum_le. intros c Hc. apply H; assumption. Qed.
Lemma nrm_add k F G : nrm k (fun x s c => F x s c + G x s c)%R = (nrm k F + nrm k G)%R.
Proof. unfold nrm. rewrite <- rsum_add. apply rsum_ext. intros x _. rewrite <- rsum_add. apply rsum_ext. intros s _. rewrite <- rsum_add. reflexivity. Qed.
Lemma nrm_scal k a F : nrm k (fun x s c => a * F x s c)%R = (a * nrm k F)%R.
Proof. unfold nrm. rewrite <- rsum_scal. apply rsum_ext. intros x _. rewrite <- rsum_scal. apply rsum_ext. intros s _. rewrite <- rsum_scal. reflexivity. Qed.
Lemma smear1_norm f : ulinks n U -> (forall mu, (0 <= kappa mu)%R) -> (norm2 n (S1 f) <= norm2 n f)%R.
Proof.
  intros HU HK. set (N := (1 + 2 * (kappa 1%nat + kappa 2%nat + kappa 3%nat))%R). assert (HN : (0 < N)%R) by (unfold N; pose proof (HK 1%nat); pose proof (HK 2%nat); pose proof (HK 3%nat); lra).
  assert (B : (norm2 n (S1 f) <= / N * (norm2 n f + kappa 1%nat * (norm2 n (T 1%nat f) + norm2 n (T' 1%nat f)) + kappa 2%nat * (norm2 n (T 2%nat f) + norm2 n (T' 2%nat f)) + kappa 3%nat * (norm2 n (T 3%nat f) + norm2 n (T' 3%nat f))))%R).
  { rewrite !norm2_nrm. rewrite <- !nrm_add, <- !nrm_scal, <- !nrm_add, <- nrm_scal. apply nrm_le. intros x s c _ _ _.
    unfold smear1. fold N. unfold sum_dirs. cbn [csum negb Nat.eqb]. unfold sadd, sscale.
    generalize (f x s c), (T 1%nat f x s c), (T' 1%nat f x s c), (T 2%nat f x s c), (T' 2%nat f x s c), (T 3%nat f x s c), (T' 3%nat f x s c).
    intros z0 z1 u1 z2 u2 z3 u3. pose proof (conv7 (kappa 1%nat) (kappa 2%nat) (kappa 3%nat) (fst z0) (fst z1) (fst u1) (fst z2) (fst u2) (fst z3) (fst u3) (HK _) (HK _) (HK _)) as A.
    pose proof (conv7 (kappa 1%nat) (kappa 2%nat) (kappa 3%nat) (snd z0) (snd z1) (snd u1) (snd z2) (snd u2) (snd z3) (snd u3) (HK _) (HK _) (HK _)) as B. cbv zeta in A, B. fold N in A, B.
    apply (Rmult_le_reg_l (N * N)); [nra|]. unfold sq. cbn. 
    match goal with |- (?l <= ?r)%R => assert (El : l = ((fst z0 + kappa 1%nat * (fst z1 + fst u1) + kappa 2%nat * (fst z2 + fst u2) + kappa 3%nat * (fst z3 + fst u3)) * (fst z0 + kappa 1%nat * (fst z1 + fst u1) + kappa 2%nat * (fst z2 + fst u2) + kappa 3%nat * (fst z3 + fst u3)) + (snd z0 + kappa 1%nat * (snd z1 + snd u1) + kappa 2%nat * (snd z2 + snd u2) + kappa 3%nat * (snd z3 + snd u3)) * (snd z0 + kappa 1%nat * (snd z1 + snd u1) + kappa 2%nat * (snd z2 + snd u2) + kappa 3%nat * (snd z3 + snd u3)))%R) by (field; lra);
      assert (Er : r = (N * (fst z0 * fst z0 + kappa 1%nat * (fst z1 * fst z1 + fst u1 * fst u1) + kappa 2%nat * (fst z2 * fst z2 + fst u2 * fst u2) + kappa 3%nat * (fst z3 * fst z3 + fst u3 * fst u3)) + N * (snd z0 * snd z0 + kappa 1%nat * (snd z1 * snd z1 + snd u1 * snd u1) + kappa 2%nat * (snd z2 * snd z2 + snd u2 * snd u2) + kappa 3%nat * (snd z3 * snd z3 + snd u3 * snd u3)))%R) by (field; lra) end.
    rewrite El, Er. apply Rplus_le_compat; assumption. }
  destruct (T_norm 1%nat f HU ltac:(lia)) as [E1 E1'], (T_norm 2%nat f HU ltac:(lia)) as [E2 E2'], (T_norm 3%nat f HU ltac:(lia)) as [E3 E3']. rewrite ?E1, ?E1', ?E2, ?E2', ?E3, ?E3' in B.
  eapply Rle_trans; [exact B|]. right. unfold N in *. field. lra.
Qed.
Lemma iter_norm k f : ulinks n U -> (forall mu, (0 <= kappa mu)%R) -> (norm2 n (Nat.iter k S1 f) <= norm2 n f)%R.
Proof. intros HU HK. induction k as [|k IH]; [apply Rle_refl|]. eapply Rle_trans; [apply (smear1_norm (Nat.iter k S1 f) HU HK)|exact IH]. Qed.
(** the time slices do not mix *)
Lemma smear1_time (time : nat -> Z) t f g : (forall x mu, (x < n)%nat -> (0 < mu < 4)%nat -> time (nup x mu) = time x /\ time (ndw x mu) = time x) ->
  (forall x, (x < n)%nat -> time x = t -> forall s, (s < 4)%nat -> veq (f x s) (g x s)) -> forall x, (x < n)%nat -> time x = t -> forall s, (s < 4)%nat -> veq (S1 f x s) (S1 g x s).
Proof.
  intros HT H x Hx Et s Hs c Hc. unfold smear1, sum_dirs, sscale, sadd. f_equal. f_equal; [apply H; assumption|]. apply csum_ext. intros mu Hmu. destruct mu as [|mu]; cbn [Nat.eqb negb]; [reflexivity|]. f_equal.
  destruct (HT x (S mu) Hx ltac:(lia)) as [T1 T2]. destruct (L x (S mu) Hx Hmu) as (L1 & L2 & _). unfold transl, transl', mvec. cbn [csum]. rewrite !(H (nup x (S mu)) L1 ltac:(congruence) s Hs), !(H (ndw x (S mu)) L2 ltac:(congruence) s Hs) by lia. reflexivity.
Qed.
End U.

(** ** change of gauge *)
Variables (U : nat -> nat -> cmat) (g : nat -> cmat).
Hypothesis Hg : forall x, (x < n)%nat -> unitary (g x).
Notation Ug := (gauged_lx nup g U).
Lemma T_gauge mu f : (mu < 4)%nat -> transl nup Ug mu (gauged_s g f) =[n]= gauged_s g (transl nup U mu f).
Proof.
  intros Hmu. pw. unfold transl, gauged_s, gauged_lx. destruct (L x mu Hx Hmu) as (Hu & Hd & _ & E).
  rewrite <- !mvec_mmul. apply mvec_ext; [|intros j _; reflexivity|exact Hc]. rewrite !mmul_assoc, unitary_l, mmul_1_r by (apply Hg; assumption). reflexivity.
Qed.
Lemma T'_gauge mu f : (mu < 4)%nat -> transl' ndw Ug mu (gauged_s g f) =[n]= gauged_s g (transl' ndw U mu f).
Proof.
  intros Hmu. pw. unfold transl', gauged_s, gauged_lx. destruct (L x mu Hx Hmu) as (Hu & Hd & _ & E).
  rewrite E. rewrite <- !mvec_mmul. apply mvec_ext; [|intros j _; reflexivity|exact Hc]. rewrite !dag_mul, dag_dag, !mmul_assoc, unitary_l, mmul_1_r by (apply Hg; assumption). reflexivity.
Qed.
Lemma gs_add f h : gauged_s g (sadd f h) =[n]= sadd (gauged_s g f) (gauged_s g h).
Proof. pw. unfold gauged_s, sadd, mvec. cbn [csum]. ring. Qed.
Lemma gs_scal a f : gauged_s g (sscale a f) =[n]= sscale a (gauged_s g f).
Proof. pw. unfold gauged_s, sscale, mvec. cbn [csum]. ring. Qed.
Lemma gs_dirs dirs F : gauged_s g (sum_dirs dirs F) =[n]= sum_dirs dirs (fun mu => gauged_s g (F mu)).
Proof. pw. unfold gauged_s, sum_dirs, mvec. cbn [csum]. destruct (dirs 0%nat), (dirs 1%nat), (dirs 2%nat), (dirs 3%nat); ring. Qed.
Lemma gs_ext f h : f =[n]= h -> gauged_s g f =[n]= gauged_s g h.
Proof. intros H. pw. unfold gauged_s, mvec. cbn [csum]. rewrite !(H x Hx s Hs) by lia. reflexivity. Qed.
Lemma lapl_gauge dirs f : lapl nup ndw Ug dirs (gauged_s g f) =[n]= gauged_s g (lapl nup ndw U dirs f).
Proof.
  unfold lapl. rewrite gs_dirs. apply sum_dirs_ext. intros mu Hmu. unfold ssub. rewrite !gs_add, !gs_scal, (T_gauge mu f Hmu), (T'_gauge mu f Hmu). reflexivity.
Qed.
Lemma lapl2_gauge dirs f : lapl2 nup ndw Ug dirs (gauged_s g f) =[n]= gauged_s g (lapl2 nup ndw U dirs f).
Proof.
  unfold lapl2. rewrite gs_dirs. apply sum_dirs_ext. intros mu Hmu. unfold ssub. rewrite !gs_scal, !gs_add, !gs_scal.
  rewrite (T_ext n nup ndw Ug L mu _ _ Hmu (T_gauge mu f Hmu)), (T'_ext n nup ndw Ug L mu _ _ Hmu (T'_gauge mu f Hmu)), (T_gauge mu _ Hmu), (T'_gauge mu _ Hmu). reflexivity.
Qed.
Lemma smear1_gauge kappa f : smear1 nup ndw Ug kappa (gauged_s g f) =[n]= gauged_s g (smear1 nup ndw U kappa f).
Proof.
  unfold smear1. rewrite gs_scal, gs_add, gs_dirs.
  rewrite (sum_dirs_ext n _ (fun mu => sscale (RtoC (kappa mu)) (sadd (transl nup Ug mu (gauged_s g f)) (transl' ndw Ug mu (gauged_s g f)))) (fun mu => gauged_s g (sscale (RtoC (kappa mu)) (sadd (transl nup U mu f) (transl' ndw U mu f))))); [reflexivity|].
  intros mu Hmu. rewrite gs_scal, gs_add, (T_gauge mu f Hmu), (T'_gauge mu f Hmu). reflexivity.
Qed.
Lemma iter_gauge kappa k f : Nat.iter k (smear1 nup ndw Ug kappa) (gauged_s g f) =[n]= gauged_s g (Nat.iter k (smear1 nup ndw U kappa) f).
Proof.
  induction k as [|k IH]; [reflexivity|]. change (smear1 nup ndw Ug kappa (Nat.iter k (smear1 nup ndw Ug kappa) (gauged_s g f)) =[n]= gauged_s g (smear1 nup ndw U kappa (Nat.iter k (smear1 nup ndw U kappa) f))).
  rewrite (smear1_ext n nup ndw Ug L kappa _ _ IH). apply smear1_gauge.
Qed.
End S.
