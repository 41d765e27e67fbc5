From Coq Require Import Reals Lra Lia Factorial.
From Coquelicot Require Import Complex Lim_seq Rbar Hierarchy Continuity Series.
From Verif Require Import CplxModel MatModel MatSpec MatRun MatProofs4 MatAlg ExpModel ExpSpec ExpProofs.
Open Scope C_scope.
Set Bullet Behavior "Strict Subproofs".

(** ** Cayley-Hamilton *)
Definition poly2 (x : cmat) (c : C * C * C) : cmat := let '(a, b, d) := c in madd (madd (mscale a mid) (mscale b x)) (mscale d (mmul x x)).
Lemma cayley_hamilton x : trace x = RtoC 0 -> meq (mmul x (mmul x x)) (madd (mscale (trace (mmul x x) * RtoC (/ 2)) x) (mscale (det x) mid)).
Proof.
  intros T. assert (E : x 2%nat 2%nat = - (x 0%nat 0%nat + x 1%nat 1%nat)).
  { unfold trace in T. cbn [csum] in T. transitivity ((RtoC 0 + x 0%nat 0%nat + x 1%nat 1%nat + x 2%nat 2%nat) - (x 0%nat 0%nat + x 1%nat 1%nat)); [ring|]. rewrite T. ring. }
  assert (H : RtoC (/ 2) * RtoC 2 = RtoC 1) by (rewrite <- RtoC_mult; f_equal; field).
  assert (C2 : forall z : C, z = RtoC (/ 2) * (z + z)) by (intros z; transitivity (RtoC (/ 2) * RtoC 2 * z); [rewrite H; ring|replace (RtoC 2) with (RtoC 1 + RtoC 1) by (rewrite <- RtoC_plus; f_equal; lra); ring]).
  intros i j Hi Hj. 
  assert (G : forall a b : C, a = RtoC (/ 2) * b -> forall c, a + c = RtoC (/ 2) * b + c) by (intros; subst; reflexivity).
  idx i; idx j; unfold mmul, madd, mscale, trace, det, mid; cbn [csum Nat.eqb]; rewrite !E.
  all: match goal with |- ?l = ?t * ?h * ?y + ?r => rewrite (C2 l), (C2 r); ring end.
Qed.
Lemma det_poly2 x a b d c1 : x 2%nat 2%nat = - (x 0%nat 0%nat + x 1%nat 1%nat) -> c1 = 
   x 0%nat 0%nat * x 0%nat 0%nat + x 1%nat 1%nat * x 1%nat 1%nat + x 0%nat 0%nat * x 1%nat 1%nat + x 0%nat 1%nat * x 1%nat 0%nat + x 0%nat 2%nat * x 2%nat 0%nat + x 1%nat 2%nat * x 2%nat 1%nat -> 
  det (poly2 x (a, b, d)) = a * a * a + c1 * a * a * d + c1 * a * a * d - c1 * a * b * b - (det x * a * b * d + det x * a * b * d + det x * a * b * d) + c1 * c1 * a * d * d + det x * b * b * b - det x * c1 * b * d * d + det x * det x * d * d * d.
Proof. intros E ->. unfold det, poly2, madd, mscale, mmul, mid; cbn [csum Nat.eqb]; rewrite !E. ring. Qed.
Lemma trace0_22 x : trace x = RtoC 0 -> x 2%nat 2%nat = - (x 0%nat 0%nat + x 1%nat 1%nat).
Proof.
  unfold trace. cbn [csum]. intros T. transitivity ((RtoC 0 + x 0%nat 0%nat + x 1%nat 1%nat + x 2%nat 2%nat) - (x 0%nat 0%nat + x 1%nat 1%nat)); [ring|].
  rewrite T. ring.
Qed.
Lemma half_trace2 x : trace x = RtoC 0 -> trace (mmul x x) * RtoC (/ 2) =
   x 0%nat 0%nat * x 0%nat 0%nat + x 1%nat 1%nat * x 1%nat 1%nat + x 0%nat 0%nat * x 1%nat 1%nat + x 0%nat 1%nat * x 1%nat 0%nat + x 0%nat 2%nat * x 2%nat 0%nat + x 1%nat 2%nat * x 2%nat 1%nat.
Proof.
  intros T. pose proof (trace0_22 _ T) as E. unfold trace, mmul. cbn [csum]. rewrite !E. ceq.
Qed.

(** ** Powers of i x, and of i q for the roots q of q^3 = c1 q + c0 *)
Definition gstep (c0 c1 : C) (c : C * C * C) : C * C * C := let '(a, b, d) := c in (Ci * c0 * d, Ci * (a + c1 * d), Ci * b).
Fixpoint gam (c0 c1 : C) (n : nat) : C * C * C := match n with O => (RtoC 1, RtoC 0, RtoC 0) | S k => gstep c0 c1 (gam c0 c1 k) end.
Definition cadd3 (c e : C * C * C) : C * C * C := let '(a, b, d) := c in let '(a', b', d') := e in (a + a', b + b', d + d').
Definition cscal3 (z : C) (c : C * C * C) : C * C * C := let '(a, b, d) := c in (z * a, z * b, z * d).
Fixpoint bet (c0 c1 : C) (n : nat) : C * C * C := match n with O => (RtoC 1, RtoC 0, RtoC 0)
  | S k => cadd3 (bet c0 c1 k) (cscal3 (RtoC (/ INR (fact (S k)))) (gam c0 c1 (S k))) end.
Definition ev3 (q : C) (c : C * C * C) : C := let '(a, b, d) := c in a + b * q + d * (q * q).

Lemma poly2_step x c0 c1 c : meq (mmul x (mmul x x)) (madd (mscale c1 x) (mscale c0 mid)) -> meq (mmul (mscale Ci x) (poly2 x c)) (poly2 x (gstep c0 c1 c)).
Proof.
  intros CH. destruct c as [[a b] d]. unfold poly2, gstep.
  assert (E : meq (mmul (mscale Ci x) (madd (madd (mscale a mid) (mscale b x)) (mscale d (mmul x x))))
     (madd (madd (mscale (Ci * a) x) (mscale (Ci * b) (mmul x x))) (mscale (Ci * d) (mmul x (mmul x x))))).
  { intros i j Hi Hj. unfold mmul, madd, mscale, mid. cbn [csum]. idx j; cbn [Nat.eqb]; ring. }
  rewrite E. clear E. intros i j Hi Hj. unfold madd, mscale at 1 2 3. rewrite (CH i j Hi Hj). unfold madd, mscale. ring.
Qed.
Lemma ev3_step q c0 c1 c : q * (q * q) = c1 * q + c0 -> Ci * q * ev3 q c = ev3 q (gstep c0 c1 c).
Proof.
  intros E. destruct c as [[a b] d]. unfold ev3, gstep.
  transitivity (Ci * a * q + Ci * b * (q * q) + Ci * d * (q * (q * q))); [ring|]. rewrite E. ring.
Qed.
Lemma mpow_gam x c0 c1 n : meq (mmul x (mmul x x)) (madd (mscale c1 x) (mscale c0 mid)) -> meq (mpow (mscale Ci x) n) (poly2 x (gam c0 c1 n)).
Proof.
  intros CH. induction n as [|n IH].
  - intros i j Hi Hj. cbn [mpow gam]. unfold poly2, madd, mscale. ring.
  - cbn [mpow gam]. rewrite IH. now apply poly2_step.
Qed.
Lemma cpow_gam q c0 c1 n : q * (q * q) = c1 * q + c0 -> cpow (Ci * q) n = ev3 q (gam c0 c1 n).
Proof. intros E. induction n as [|n IH]; [unfold ev3; cbn; ring|]. cbn [cpow gam]. rewrite IH. now apply ev3_step. Qed.
Lemma poly2_add x c e i j : poly2 x (cadd3 c e) i j = poly2 x c i j + poly2 x e i j.
Proof. destruct c as [[? ?] ?], e as [[? ?] ?]. unfold poly2, cadd3, madd, mscale. ring. Qed.
Lemma poly2_scal x z c i j : poly2 x (cscal3 z c) i j = z * poly2 x c i j.
Proof. destruct c as [[? ?] ?]. unfold poly2, cscal3, madd, mscale. ring. Qed.
Lemma ev3_add q c e : ev3 q (cadd3 c e) = ev3 q c + ev3 q e.
Proof. destruct c as [[? ?] ?], e as [[? ?] ?]. unfold ev3, cadd3. ring. Qed.
Lemma ev3_scal q z c : ev3 q (cscal3 z c) = z * ev3 q c.
Proof. destruct c as [[? ?] ?]. unfold ev3, cscal3. ring. Qed.
Lemma mexp_bet x c0 c1 n : meq (mmul x (mmul x x)) (madd (mscale c1 x) (mscale c0 mid)) -> meq (mexp_sum (mscale Ci x) n) (poly2 x (bet c0 c1 n)).
Proof.
  intros CH. induction n as [|n IH].
  - intros i j Hi Hj. cbn [mexp_sum bet]. unfold poly2, madd, mscale. ring.
  - intros i j Hi Hj. cbn [mexp_sum bet]. rewrite poly2_add, poly2_scal. unfold madd, mscale at 2. rewrite (IH i j Hi Hj). f_equal. f_equal.
    apply (mpow_gam x c0 c1 (S n) CH i j Hi Hj).
Qed.
Lemma cexp_bet q c0 c1 n : q * (q * q) = c1 * q + c0 -> cexp_sum (Ci * q) n = ev3 q (bet c0 c1 n).
Proof.
  intros E. induction n as [|n IH]; [unfold ev3; cbn; ring|]. cbn [cexp_sum bet]. rewrite ev3_add, ev3_scal, IH. f_equal. f_equal.
  now apply cpow_gam.
Qed.

(** ** Interpolation at three distinct real points *)
Open Scope R_scope.
Definition w3 (k : nat) (q0 q1 q2 e0 e1 e2 : R) : R :=
  let d0 := e0 / ((q0 - q1) * (q0 - q2)) in let d1 := e1 / ((q1 - q0) * (q1 - q2)) in let d2 := e2 / ((q2 - q0) * (q2 - q1)) in
  match k with
  | O => q1 * q2 * d0 + q0 * q2 * d1 + q0 * q1 * d2
  | 1%nat => - (q1 + q2) * d0 + - (q0 + q2) * d1 + - (q0 + q1) * d2
  | _ => 1 * d0 + 1 * d1 + 1 * d2 end.
Lemma w3_ok k q0 q1 q2 a b d : q0 <> q1 -> q0 <> q2 -> q1 <> q2 ->
  w3 k q0 q1 q2 (a + b * q0 + d * (q0 * q0)) (a + b * q1 + d * (q1 * q1)) (a + b * q2 + d * (q2 * q2)) = match k with O => a | 1%nat => b | _ => d end.
Proof. intros. unfold w3. destruct k as [|[|k]]; field; repeat split; lra. Qed.
Lemma w3_lim k q0 q1 q2 (e0 e1 e2 : nat -> R) (l0 l1 l2 : R) :
  is_lim_seq e0 l0 -> is_lim_seq e1 l1 -> is_lim_seq e2 l2 -> is_lim_seq (fun n => w3 k q0 q1 q2 (e0 n) (e1 n) (e2 n)) (w3 k q0 q1 q2 l0 l1 l2).
Proof.
  intros H0 H1 H2. unfold w3, Rdiv.
  assert (L : forall a b c i0 i1 i2 : R, is_lim_seq (fun n => a * (e0 n * i0) + b * (e1 n * i1) + c * (e2 n * i2)) (a * (l0 * i0) + b * (l1 * i1) + c * (l2 * i2))).
  { intros. assert (S : forall (e : nat -> R) (l c i : R), is_lim_seq e l -> is_lim_seq (fun n => c * (e n * i)) (c * (l * i))).
    { intros e l c' i H. exact (is_lim_seq_scal_l _ c' (l * i) (is_lim_seq_scal_r e i l H)). }
    exact (is_lim_seq_plus' _ _ _ _ (is_lim_seq_plus' _ _ _ _ (S e0 l0 a i0 H0) (S e1 l1 b i1 H1)) (S e2 l2 c i2 H2)). }
  destruct k as [|[|k]]; apply L.
Qed.

(** coefficients of the real and imaginary parts *)
Definition cof3 (k : nat) (c : C * C * C) : C := let '(a, b, d) := c in match k with O => a | 1%nat => b | _ => d end.
Lemma ev3_re q c : fst (ev3 (RtoC q) c) = fst (cof3 0 c) + fst (cof3 1 c) * q + fst (cof3 2 c) * (q * q).
Proof. destruct c as [[[? ?] [? ?]] [? ?]]. cbn. ring. Qed.
Lemma ev3_im q c : snd (ev3 (RtoC q) c) = snd (cof3 0 c) + snd (cof3 1 c) * q + snd (cof3 2 c) * (q * q).
Proof. destruct c as [[[? ?] [? ?]] [? ?]]. cbn. ring. Qed.
Lemma cof3_re k q0 q1 q2 c : q0 <> q1 -> q0 <> q2 -> q1 <> q2 ->
  fst (cof3 k c) = w3 k q0 q1 q2 (fst (ev3 (RtoC q0) c)) (fst (ev3 (RtoC q1) c)) (fst (ev3 (RtoC q2) c)).
Proof. intros. rewrite !ev3_re, w3_ok by assumption. destruct c as [[? ?] ?], k as [|[|k]]; reflexivity. Qed.
Lemma cof3_im k q0 q1 q2 c : q0 <> q1 -> q0 <> q2 -> q1 <> q2 ->
  snd (cof3 k c) = w3 k q0 q1 q2 (snd (ev3 (RtoC q0) c)) (snd (ev3 (RtoC q1) c)) (snd (ev3 (RtoC q2) c)).
Proof. intros. rewrite !ev3_im, w3_ok by assumption. destruct c as [[? ?] ?], k as [|[|k]]; reflexivity. Qed.

Definition eiq (q : R) : C := (cos q, sin q).
Section Exp.
Variables (x : cmat) (c0 c1 : R) (q : nat -> R) (F : C * C * C).
Hypothesis (D01 : q 0%nat <> q 1%nat) (D02 : q 0%nat <> q 2%nat) (D12 : q 1%nat <> q 2%nat).
Hypothesis (HR : forall k, (k < 3)%nat -> q k * (q k * q k) = c1 * q k + c0).
Hypothesis (HF : forall k, (k < 3)%nat -> ev3 (RtoC (q k)) F = eiq (q k)).
Hypothesis (CH : meq (mmul x (mmul x x)) (madd (mscale (RtoC c1) x) (mscale (RtoC c0) mid))).
Lemma bet_ev k n : (k < 3)%nat -> ev3 (RtoC (q k)) (bet (RtoC c0) (RtoC c1) n) = cexp_sum (Ci * RtoC (q k))%C n.
Proof. intros Hk. symmetry. apply cexp_bet. rewrite <- !RtoC_mult, <- RtoC_plus, (HR k Hk). reflexivity. Qed.
Lemma bet_lim_re k : is_lim_seq (fun n => fst (cof3 k (bet (RtoC c0) (RtoC c1) n))) (fst (cof3 k F)).
Proof.
  rewrite (cof3_re k _ _ _ F D01 D02 D12), !HF by lia. cbn [fst eiq].
  apply (is_lim_seq_ext (fun n => w3 k (q 0%nat) (q 1%nat) (q 2%nat) (fst (cexp_sum (Ci * RtoC (q 0%nat))%C n)) (fst (cexp_sum (Ci * RtoC (q 1%nat))%C n)) (fst (cexp_sum (Ci * RtoC (q 2%nat))%C n)))).
  - intros n. rewrite <- !bet_ev by lia. rewrite <- (cof3_re k _ _ _ _ D01 D02 D12). reflexivity.
  - apply w3_lim; apply cexp_cos.
Qed.
Lemma bet_lim_im k : is_lim_seq (fun n => snd (cof3 k (bet (RtoC c0) (RtoC c1) n))) (snd (cof3 k F)).
Proof.
  rewrite (cof3_im k _ _ _ F D01 D02 D12), !HF by lia. cbn [snd eiq].
  apply (is_lim_seq_ext (fun n => w3 k (q 0%nat) (q 1%nat) (q 2%nat) (snd (cexp_sum (Ci * RtoC (q 0%nat))%C n)) (snd (cexp_sum (Ci * RtoC (q 1%nat))%C n)) (snd (cexp_sum (Ci * RtoC (q 2%nat))%C n)))).
  - intros n. rewrite <- !bet_ev by lia. rewrite <- (cof3_im k _ _ _ _ D01 D02 D12). reflexivity.
  - apply w3_lim; apply cexp_sin.
Qed.
Lemma poly2_cof y c i j : poly2 y c i j = (cof3 0 c * mid i j + cof3 1 c * y i j + cof3 2 c * mmul y y i j)%C.
Proof. destruct c as [[? ?] ?]. reflexivity. Qed.
Ltac lim_split := lazymatch goal with |- is_lim_seq (fun n => _ + _) _ => apply is_lim_seq_plus' | |- is_lim_seq (fun n => _ - _) _ => apply is_lim_seq_minus' end.
Lemma poly2_exp : is_mexp (mscale Ci x) (poly2 x F).
Proof.
  intros i j Hi Hj. 
  assert (S : forall (e : nat -> R) (l c : R), is_lim_seq e l -> is_lim_seq (fun n => e n * c) (l * c)) by (intros e l c H; apply (is_lim_seq_scal_r e c l H)).
  split.
  - apply (is_lim_seq_ext (fun n => fst (poly2 x (bet (RtoC c0) (RtoC c1) n) i j))).
    { intros n. f_equal. symmetry. exact (mexp_bet x (RtoC c0) (RtoC c1) n CH i j Hi Hj). }
    rewrite poly2_cof. eapply is_lim_seq_ext; [intros n; rewrite poly2_cof; reflexivity|]. cbn [fst Cplus Cmult].
    repeat lim_split; apply S; first [apply bet_lim_re | apply bet_lim_im].
  - apply (is_lim_seq_ext (fun n => snd (poly2 x (bet (RtoC c0) (RtoC c1) n) i j))).
    { intros n. f_equal. symmetry. exact (mexp_bet x (RtoC c0) (RtoC c1) n CH i j Hi Hj). }
    rewrite poly2_cof. eapply is_lim_seq_ext; [intros n; rewrite poly2_cof; reflexivity|]. cbn [snd Cplus Cmult].
    repeat lim_split; apply S; first [apply bet_lim_re | apply bet_lim_im].
Qed.
End Exp.
