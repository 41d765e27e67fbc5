(** The free twisted mass quark on shell. *)
From Coq Require Import Reals Lra Lia List ZArith FunctionalExtensionality.
From Coquelicot Require Import Complex.
From Verif Require Import CplxModel CplxSpec CplxProofs CplxStores MatModel MatSpec MatProofs DiracModel DiracSpec DiracProofs SpinModel SpinSpec SpinProofs SpinProofs2 SpinProofs3 FreeTmModel FreeTmSpec FreeTmProofs.
Import ListNotations.
Open Scope R_scope.
Set Bullet Behavior "Strict Subproofs".

Lemma ch_sh e : cosh e * cosh e = 1 + sinh e * sinh e.
Proof. unfold cosh, sinh. assert (H : exp e * exp (- e) = 1) by (rewrite <- exp_plus, Rplus_opp_r; apply exp_0). transitivity ((exp e * exp e + exp (- e) * exp (- e)) / 4 + (exp e * exp (- e)) / 2); [field|]. rewrite H. field_simplify. transitivity (1 + ((exp e * exp e + exp (- e) * exp (- e)) / 4 - (exp e * exp (- e)) / 2)); [rewrite H; field|field]. Qed.
Lemma ch_half e : cosh e = 1 + 2 * (sinh (e / 2) * sinh (e / 2)).
Proof.
  unfold cosh, sinh. assert (H : exp (e / 2) * exp (- (e / 2)) = 1) by (rewrite <- exp_plus, Rplus_opp_r; apply exp_0).
  assert (H1 : exp e = exp (e / 2) * exp (e / 2)) by (rewrite <- exp_plus; f_equal; field).
  assert (H2 : exp (- e) = exp (- (e / 2)) * exp (- (e / 2))) by (rewrite <- exp_plus; f_equal; field). rewrite H1, H2. transitivity (1 + (exp (e / 2) * exp (e / 2) + exp (- (e / 2)) * exp (- (e / 2))) / 2 - exp (e / 2) * exp (- (e / 2))); [rewrite H; field|field].
Qed.
Lemma ch_opp e : cosh (- e) = cosh e. Proof. unfold cosh. rewrite Ropp_involutive. f_equal. apply Rplus_comm. Qed.
Lemma sh_opp e : sinh (- e) = - sinh e. Proof. unfold sinh. rewrite Ropp_involutive. field. Qed.
Lemma sh_pos e : 0 <= e -> 0 <= sinh e.
Proof. intros [H|<-]; [left; rewrite <- sinh_0; now apply sinh_lt|rewrite sinh_0; lra]. Qed.
Lemma ash_pos y : 0 <= y -> 0 <= arcsinh y.
Proof. intros [H|<-]; [left; rewrite <- arcsinh_0; now apply arcsinh_lt|rewrite arcsinh_0; lra]. Qed.
Lemma ch_inj e f : 0 <= e -> 0 <= f -> cosh e = cosh f -> e = f.
Proof.
  intros He Hf H. assert (S : sinh e * sinh e = sinh f * sinh f) by (pose proof (ch_sh e); pose proof (ch_sh f); rewrite H in *; lra).
  assert (E : sinh e = sinh f) by (pose proof (sh_pos e He); pose proof (sh_pos f Hf); nra). rewrite <- (arcsinh_sinh e), <- (arcsinh_sinh f), E. reflexivity.
Qed.

(** 1/(2 kappa) - sum_i cos p_i *)
Definition Bk (L : nat -> Z) (qu : TmQuarkInfo) (x : nat -> Z) : R := / (2 * kappa qu) - (cos (mom L (bc qu) x 1) + cos (mom L (bc qu) x 2) + cos (mom L (bc qu) x 3)).
Definition Sp (L : nat -> Z) (th : nat -> R) (x : nat -> Z) : R := (sin (mom L th x 1))^2 + (sin (mom L th x 2))^2 + (sin (mom L th x 3))^2.
Lemma shell_mass_B L qu x e : shell_mass L qu x e = Bk L qu x - cosh e.
Proof. unfold shell_mass, wilson_mass, rsum, Bk. cbn [seq fold_right Nat.eqb]. ring. Qed.
Lemma on_shell_iff L qu x e : 0 < Bk L qu x -> (on_shell L qu x e <-> cosh e = 1 + (Sp L (bc qu) x + (Bk L qu x - 1)^2 + (mass qu)^2) / (2 * Bk L qu x)).
Proof.
  intros H. unfold on_shell. fold (Sp L (bc qu) x). rewrite shell_mass_B. set (B := Bk L qu x) in *. set (S0 := Sp _ _ _). pose proof (ch_sh e) as C. set (m := mass qu). split; intros E.
  - assert (2 * B * cosh e = S0 + B^2 + 1 + m^2) by nra. replace (1 + (S0 + (B - 1)^2 + m^2) / (2 * B)) with ((S0 + B^2 + 1 + m^2) / (2 * B)) by (field; lra). rewrite <- H0. field. lra.
  - replace (- (sinh e)^2) with (1 - cosh e * cosh e) by (rewrite C; ring). rewrite E. field. lra.
Qed.
Lemma cosE L qu x : kappa qu <> 0 -> 0 < Bk L qu x -> 0 <= tm_quark_energy L qu x /\ cosh (tm_quark_energy L qu x) = 1 + (Sp L (bc qu) x + (Bk L qu x - 1)^2 + (mass qu)^2) / (2 * Bk L qu x).
Proof.
  intros K H. unfold tm_quark_energy. cbn [seq fold_left]. rewrite !mom_eq. set (m0 := m0_of_kappa (kappa qu)).
  set (q1 := sin (mom L (bc qu) x 1 / 2)). set (q2 := sin (mom L (bc qu) x 2 / 2)). set (q3 := sin (mom L (bc qu) x 3 / 2)).
  set (X := _ / (1 + m0 + (0 + q1 * q1 + q2 * q2 + q3 * q3) * 4 / 2)).
  assert (SQ : forall p, (sin p)^2 = 4 * (sin (p / 2))^2 * (1 - (sin (p / 2))^2)).
  { intros p. replace p with (2 * (p / 2)) at 1 by field. rewrite sin_2a. pose proof (sin2_cos2 (p / 2)) as T. unfold Rsqr in T. replace (1 - sin (p / 2) ^ 2) with (cos (p / 2) * cos (p / 2)) by lra. ring. }
  assert (EB : Bk L qu x = 1 + m0 + (0 + q1 * q1 + q2 * q2 + q3 * q3) * 4 / 2).
  { unfold Bk, m0, m0_of_kappa, q1, q2, q3. rewrite (cos_half (mom L (bc qu) x 1)), (cos_half (mom L (bc qu) x 2)), (cos_half (mom L (bc qu) x 3)). field. exact K. }
  assert (EX : X = (Sp L (bc qu) x + (Bk L qu x - 1)^2 + (mass qu)^2) / Bk L qu x).
  { unfold X, Sp. rewrite (SQ (mom L (bc qu) x 1)), (SQ (mom L (bc qu) x 2)), (SQ (mom L (bc qu) x 3)). fold q1 q2 q3. rewrite EB. f_equal. field. }
  assert (XP : 0 <= X). { rewrite EX. unfold Rdiv. apply Rmult_le_pos; [|left; now apply Rinv_0_lt_compat]. unfold Sp. pose proof (pow2_ge_0 (sin (mom L (bc qu) x 1))). pose proof (pow2_ge_0 (sin (mom L (bc qu) x 2))). pose proof (pow2_ge_0 (sin (mom L (bc qu) x 3))). pose proof (pow2_ge_0 (Bk L qu x - 1)). pose proof (pow2_ge_0 (mass qu)). lra. }
  split.
  - assert (0 <= arcsinh (sqrt (X / 4))) by (apply ash_pos, sqrt_pos). lra.
  - rewrite ch_half. replace (2 * arcsinh (sqrt (X / 4)) / 2) with (arcsinh (sqrt (X / 4))) by field. rewrite sinh_arcsinh, sqrt_sqrt by lra. rewrite EX. field. lra.
Qed.
Lemma naiveE L th x : let E := naive_massless_quark_energy L th x in 0 <= E /\ (sinh E)^2 = Sp L th x.
Proof.
  unfold naive_massless_quark_energy. cbn [seq fold_left]. rewrite !mom_eq. unfold sqr. set (X := 0 + _ + _ + _). assert (EX : X = Sp L th x) by (unfold X, Sp; ring).
  assert (XP : 0 <= X). { rewrite EX. unfold Sp. pose proof (pow2_ge_0 (sin (mom L th x 1))). pose proof (pow2_ge_0 (sin (mom L th x 2))). pose proof (pow2_ge_0 (sin (mom L th x 3))). lra. }
  split; [apply ash_pos, sqrt_pos|]. rewrite sinh_arcsinh. replace (sqrt X ^ 2) with (sqrt X * sqrt X) by ring. now rewrite sqrt_sqrt.
Qed.

(** *** the operator on shell *)
Open Scope C_scope.
Lemma sqr_half e (esign : Z) E : (esign = 1 \/ esign = -1)%Z -> e = (IZR esign * E)%R -> cosh e = cosh E /\ sinh e = (IZR esign * sinh E)%R.
Proof. intros [-> | ->] ->; cbn [IZR IPR]; [rewrite !Rmult_1_l; auto|]. replace (-1 * E)%R with (- E)%R by ring. rewrite ch_opp, sh_opp. split; ring. Qed.
Definition Ttm (base : tm_basis_t) (tau m M : R) (s : nat -> C) : dmat := Dtm base (- tau) m M (fun mu => - s mu).
Lemma Ttm_comb base tau m M s : deq (Ttm base tau m M s) (dsub (dscale (c0_of base m M) did) (dscale Ci (comb s (c5_of base tau m M)))).
Proof. intros i j _ _. unfold Ttm, Dtm, dsub, dscale, comb, c0_of, c5_of, slash. cbn [csum]. destruct base; rewrite ?RtoC_opp, ?RtoC_mult, ?RtoC_opp; ring. Qed.
Lemma shell_run L bg proj c qu x tilded (esign : Z) base op E m : kappa qu <> 0%R -> (r qu < 2)%nat -> gammas_at bg m -> bg <> proj -> (forall i j, c <> bg@[i]@[j]) -> (forall i j, c <> proj@[i]@[j]) ->
  (esign = 1 \/ esign = -1)%Z -> twisted_on_shell_operator_of_imom L bg proj c qu x tilded esign base = Some (op, E) ->
  E = tm_quark_energy L qu x /\
  run (eq c) proj m (op m) (let e := (IZR esign * E)%R in (if tilded then Ttm else Dtm) base (sgn qu) (mass qu) (shell_mass L qu x e) (shell_sin L (bc qu) x e)).
Proof.
  intros K R G N Nc No Hs. unfold twisted_on_shell_operator_of_imom. assert (Es : (negb (esign =? -1) && negb (esign =? 1))%Z%bool = false) by (destruct Hs as [-> | ->]; reflexivity). rewrite Es.
  cbn [seq fold_left]. rewrite !tau_eq by exact R. fold (sgn qu). intros Heq. injection Heq as <- <-. split; [reflexivity|]. rewrite !then_run. cbv zeta. set (e := (IZR esign * _)%R).
  assert (EM : (m0_of_kappa (kappa qu) + 2 * (- sqr (sinh (e / 2)) + sqr (sin (mom_of L (bc qu) x 1 / 2)) + sqr (sin (mom_of L (bc qu) x 2 / 2)) + sqr (sin (mom_of L (bc qu) x 3 / 2))))%R = shell_mass L qu x e).
  { rewrite !mom_eq. unfold shell_mass, wilson_mass, rsum, m0_of_kappa, sqr. cbn [seq fold_right Nat.eqb]. rewrite (ch_half e), (cos_half (mom L (bc qu) x 1)), (cos_half (mom L (bc qu) x 2)), (cos_half (mom L (bc qu) x 3)). field. exact K. }
  rewrite EM. clear EM. set (M := shell_mass L qu x e).
  match goal with |- context [spinspin_put_to_diag_double proj ?a c] => set (c0 := a) end. match goal with |- context [spinspin_dirac_summ_the_prod_idouble proj bg@[5%nat] (gpos 5) ?a] => set (c5 := a) end.
  destruct (spinspin_put_to_diag_double_ok proj c0 c No m) as [A B].
  assert (H0 : run (eq c) proj m (spinspin_put_to_diag_double proj c0 c m) (dscale c0 did)) by (split; [exact A|exact B]).
  assert (Nc' : forall i j, ~ c = bg@[i]@[j]) by exact Nc.
  pose proof (fun k => run_d (eq c) bg proj 4 m _ _ k ltac:(lia) N Nc' G H0) as H1. pose proof (fun k s => run_dirs3 (eq c) bg proj m _ _ s N Nc' G (H1 k)) as H2. pose proof (fun k s => run_id (eq c) bg proj 5 m _ _ c5 ltac:(lia) N Nc' G (H2 k s)) as H3.
  eapply run_ext; [apply H3|]. intros i j _ _. unfold dadd, dscale. change (gk 5) with gam5. change (gk 4) with (gam 0). unfold slash. cbn [csum Nat.eqb]. rewrite !mom_eq.
  unfold c0, c5. clear. generalize M. intros M0. destruct tilded, base; unfold Ttm, Dtm, shell_sin, slash; cbn [csum Nat.eqb]; 
    generalize (gam 0 i j) (gam 1 i j) (gam 2 i j) (gam 3 i j) (gam5 i j) (did i j) (sin (mom L (bc qu) x 1)) (sin (mom L (bc qu) x 2)) (sin (mom L (bc qu) x 3)) (sinh e); intros; apply injective_projections; cbn; ring.
Qed.
Lemma D_T L qu x base e : on_shell L qu x e -> let s := shell_sin L (bc qu) x e in let M := shell_mass L qu x e in
  deq (dmul (Dtm base (sgn qu) (mass qu) M s) (Ttm base (sgn qu) (mass qu) M s)) (fun _ _ => RtoC 0) /\ deq (dmul (Ttm base (sgn qu) (mass qu) M s) (Dtm base (sgn qu) (mass qu) M s)) (fun _ _ => RtoC 0).
Proof.
  intros H s M. destruct (plus_minus (c0_of base (mass qu) M) (comb s (c5_of base (sgn qu) (mass qu) M)) (sqs s (c5_of base (sgn qu) (mass qu) M)) 1 (comb_sq _ _)) as [A B].
  assert (Z : RtoC 1 * (RtoC (c0_of base (mass qu) M) * RtoC (c0_of base (mass qu) M) + sqs s (c5_of base (sgn qu) (mass qu) M)) = RtoC 0).
  { rewrite (q_val base (sgn qu) (mass qu) M s (sgn_sq qu)). unfold s, shell_sin. cbn [csum Nat.eqb]. unfold on_shell in H. fold M in H.
    transitivity (RtoC (- (sinh e)^2 + ((sin (mom L (bc qu) x 1))^2 + (sin (mom L (bc qu) x 2))^2 + (sin (mom L (bc qu) x 3))^2) + M^2 + (mass qu)^2)); [apply injective_projections; cbn; ring|now rewrite H]. }
  rewrite Z in A, B. assert (E1 : forall X : dmat, deq (dscale 1 X) X) by (intros X i j _ _; unfold dscale; ring). assert (E0 : deq (dscale (RtoC 0) did) (fun _ _ => RtoC 0)) by (intros i j _ _; unfold dscale; ring).
  rewrite E1, E0 in A, B. rewrite Dtm_comb, Ttm_comb. split; assumption.
Qed.
Lemma dvec_mul (X Y : dmat) v i : dvec (dmul X Y) v i = dvec X (dvec Y v) i.
Proof. unfold dvec, dmul. cbn [csum]. ring. Qed.
Lemma dvec_ext (X Y : dmat) v w i : deq X Y -> (forall j, (j < 4)%nat -> v j = w j) -> (i < 4)%nat -> dvec X v i = dvec Y w i.
Proof. intros H K Hi. unfold dvec. apply csum_ext. intros k Hk. now rewrite (H i k Hi Hk), K. Qed.
Lemma dvec_sc (X : dmat) (k : C) v i : dvec X (fun j => k * v j) i = k * dvec X v i. Proof. unfold dvec. cbn [csum]. ring. Qed.
(** gamma_0 changes the sign of the spatial components *)
Lemma conj0 L qu x base e : deq (dmul (Dtm base (sgn qu) (mass qu) (shell_mass L qu x (- e)) (shell_sin L (bc qu) x (- e))) (gam 0)) (dmul (gam 0) (Ttm base (sgn qu) (mass qu) (shell_mass L qu x e) (shell_sin L (bc qu) x e))).
Proof.
  assert (EM : shell_mass L qu x (- e) = shell_mass L qu x e) by (rewrite !shell_mass_B, ch_opp; reflexivity). rewrite EM. set (M := shell_mass L qu x e).
  rewrite Dtm_comb, Ttm_comb. set (c0 := c0_of _ _ _). set (c5 := c5_of _ _ _ _). unfold shell_sin. rewrite sh_opp. set (s1 := sin (mom L (bc qu) x 1)). set (s2 := sin (mom L (bc qu) x 2)). set (s3 := sin (mom L (bc qu) x 3)).
  cases i j; ev; fold s1 s2 s3; clearbody c5 c0 s1 s2 s3; clear; destruct c5 as [x5 y5]; apply injective_projections; cbn; ring.
Qed.
(** the wave functions before the normalisation, and their products *)
Definition wave0 (c0 : R) (s : nat -> C) (c5 : C) (t : nat) : nat -> C := dvec (dsub (dscale c0 did) (dscale Ci (comb s c5))) (ompg0_eig 1 t).
Definition wave1 (c0 : R) (s : nat -> C) (c5 : C) (t : nat) : nat -> C := dvec (gam 0) (dvec (dadd (dscale c0 did) (dscale Ci (comb s c5))) (ompg0_eig 0 t)).
Definition s_of (sh p1 p2 p3 : R) : nat -> C := fun mu => if Nat.eqb mu 0 then Ci * sh else RtoC (nth (mu - 1) [p1; p2; p3] 0%R).
Definition tab0 (w c0 sh p1 p2 p3 d : R) (t i : nat) : C := nth i (nth t
  [[(w * (c0 + sh + p3), - (w * d)); (w * p1, w * p2); (w * (p3 - sh - c0), - (w * d)); (w * p1, w * p2)];
   [(w * p1, - (w * p2)); (w * (c0 + sh - p3), - (w * d)); (w * p1, - (w * p2)); (- (w * (sh + p3 + c0)), - (w * d))]] [])%R (RtoC 0).
Definition tab1 (w c0 sh p1 p2 p3 d : R) (t i : nat) : C := nth i (nth t
  [[(- (w * (sh - p3 + c0)), w * d); (w * p1, w * p2); (- (w * (c0 + sh + p3)), - (w * d)); (- (w * p1), - (w * p2))];
   [(w * p1, - (w * p2)); (- (w * (sh + p3 + c0)), w * d); (- (w * p1), w * p2); (- (w * (c0 + sh - p3)), - (w * d))]] [])%R (RtoC 0).
Ltac w_case := unfold ompg0_eig; cbn [nth]; generalize W; intros w; apply injective_projections; cbn; ring.
Lemma two k : (k < 2)%nat -> k = 0%nat \/ k = 1%nat. Proof. lia. Qed.
Lemma wave0_val c0 sh p1 p2 p3 d t i : (t < 2)%nat -> (i < 4)%nat -> wave0 c0 (s_of sh p1 p2 p3) (RtoC d) t i = tab0 W c0 sh p1 p2 p3 d t i.
Proof.
  intros Ht Hi. unfold wave0, dvec, s_of, tab0. destruct (two t Ht) as [-> | ->]; (destruct i as [|[|[|[|i]]]]; [| | | |lia]); clear; ev; w_case.
Qed.
Lemma wave1_val c0 sh p1 p2 p3 d t i : (t < 2)%nat -> (i < 4)%nat -> wave1 c0 (s_of sh p1 p2 p3) (RtoC d) t i = tab1 W c0 sh p1 p2 p3 d t i.
Proof.
  intros Ht Hi. unfold wave1, dvec, s_of, tab1. destruct (two t Ht) as [-> | ->]; (destruct i as [|[|[|[|i]]]]; [| | | |lia]); clear; ev; w_case.
Qed.
Lemma wave_norm (c0 sh p1 p2 p3 d : R) (t u : nat) : (t < 2)%nat -> (u < 2)%nat ->
  let n := RtoC (2 * (W * W) * (if Nat.eqb t u then (c0 + sh)^2 + (p1^2 + p2^2 + p3^2 + d^2) else 0))%R in
  let s := s_of sh p1 p2 p3 in
  sprod (wave0 c0 s d t) (wave0 c0 s d u) = n /\ sprod (wave1 c0 s d t) (wave1 c0 s d u) = n /\ sprod (wave0 c0 s d t) (wave1 c0 s d u) = RtoC 0.
Proof.
  intros Ht Hu n s. unfold sprod. cbn [csum]. unfold s. rewrite !wave0_val, !wave1_val by lia. unfold n. generalize W. intros w.
  destruct (two t Ht) as [-> | ->], (two u Hu) as [-> | ->]; clear; (split; [|split]); unfold tab0, tab1; cbn [nth Nat.eqb]; apply injective_projections; cbn; ring.
Qed.
Lemma W_sq : (2 * (W * W) = 1)%R.
Proof. unfold W. pose proof (sqrt_sqrt 2 ltac:(lra)) as S2. assert (sqrt 2 <> 0)%R by (intros E; rewrite E in S2; lra). transitivity (2 / (sqrt 2 * sqrt 2))%R; [field; assumption|rewrite S2; field]. Qed.
