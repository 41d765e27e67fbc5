(** C95: the free twisted mass quark on shell: energy, operator and wave functions. *)
From Coq Require Import Reals Lra Lia List ZArith FunctionalExtensionality.
From Coquelicot Require Import Complex.
From Verif Require Import CplxModel CplxSpec CplxProofs CplxStores MatModel MatSpec MatProofs DiracModel DiracSpec DiracProofs SpinModel SpinSpec SpinProofs SpinProofs2 SpinProofs3 FreeTmModel FreeTmSpec FreeTmProofs FreeTmShell.
From Verif Require MatProofs4 MatAlg.
Import ListNotations.
Open Scope C_scope.
Set Bullet Behavior "Strict Subproofs".

(** two objects in memory with no common part *)
Definition apart (a b : path) : Prop := forall p q : path, (p ++ a)%list <> (q ++ b)%list.

(** C95: the energy is the only non negative solution of the dispersion relation *)
Theorem C95_energy : forall L qu x, kappa qu <> 0%R -> (0 < / (2 * kappa qu) - (cos (mom L (bc qu) x 1) + cos (mom L (bc qu) x 2) + cos (mom L (bc qu) x 3)))%R ->
  forall e, (e = tm_quark_energy L qu x) <-> ((0 <= e)%R /\ on_shell L qu x e).
Proof.
  intros L qu x K H e. change (0 < Bk L qu x)%R in H. destruct (cosE L qu x K H) as [E0 E1]. split.
  - intros ->. split; [exact E0|]. apply on_shell_iff; [exact H|exact E1].
  - intros [P O]. apply on_shell_iff in O; [|exact H]. apply ch_inj; [exact P|exact E0|]. now rewrite O, E1.
Qed.
Print Assumptions C95_energy.
Theorem C95_naive_energy : forall L th x e, (e = naive_massless_quark_energy L th x) <-> ((0 <= e)%R /\ ((sinh e)^2 = (sin (mom L th x 1))^2 + (sin (mom L th x 2))^2 + (sin (mom L th x 3))^2)%R).
Proof.
  intros L th x e. destruct (naiveE L th x) as [E0 E1]. split.
  - intros ->. split; [exact E0|exact E1].
  - intros [P O]. fold (Sp L th x) in O. rewrite <- E1 in O. apply ch_inj; [exact P|exact E0|].
    pose proof (ch_sh e) as C1. pose proof (ch_sh (naive_massless_quark_energy L th x)) as C2. assert (Cp : forall y, (0 < cosh y)%R) by (intros y; unfold cosh; pose proof (exp_pos y); pose proof (exp_pos (- y)); lra).
    pose proof (Cp e). pose proof (Cp (naive_massless_quark_energy L th x)). clear - C1 C2 O H H0. nra.
Qed.
Print Assumptions C95_naive_energy.

(** C95: the operator on shell is the Dirac operator with p_0 = i (sign of the energy) E; the tilded one is that of the other r and of the opposite momentum, and the
    product of the two vanishes.  Another sign stops the program *)
Theorem C95_operator : forall L bg proj c qu x base esign m, kappa qu <> 0%R -> (r qu < 2)%nat -> gammas_at bg m -> bg <> proj -> (forall i j, c <> bg@[i]@[j]) -> (forall i j, c <> proj@[i]@[j]) ->
  (forall tilded, esign <> 1%Z -> esign <> (-1)%Z -> twisted_on_shell_operator_of_imom L bg proj c qu x tilded esign base = None) /\
  (esign = 1%Z \/ esign = (-1)%Z -> exists op opt, let E := tm_quark_energy L qu x in let e := (IZR esign * E)%R in let tau := if Nat.eqb (r qu) 0 then (-1)%R else 1%R in
    twisted_on_shell_operator_of_imom L bg proj c qu x false esign base = Some (op, E) /\ twisted_on_shell_operator_of_imom L bg proj c qu x true esign base = Some (opt, E) /\
    deq (ss (op m) proj) (Dshell L qu x base e) /\ deq (ss (opt m) proj) (Dtm base (- tau) (mass qu) (shell_mass L qu x e) (fun mu => - shell_sin L (bc qu) x e mu)) /\
    (forall q, ~ in_ss proj q -> q <> c -> op m q = m q /\ opt m q = m q) /\
    (on_shell L qu x E -> deq (dmul (ss (op m) proj) (ss (opt m) proj)) (fun _ _ => RtoC 0) /\ deq (dmul (ss (opt m) proj) (ss (op m) proj)) (fun _ _ => RtoC 0))).
Proof.
  intros L bg proj c qu x base esign m K R G N Nc No. split.
  - intros tilded N1 N2. unfold twisted_on_shell_operator_of_imom. destruct (Z.eqb_spec esign (-1)); [congruence|]. destruct (Z.eqb_spec esign 1); [congruence|]. reflexivity.
  - intros Hs.
    assert (X : forall tilded, exists op, twisted_on_shell_operator_of_imom L bg proj c qu x tilded esign base = Some (op, tm_quark_energy L qu x)).
    { intros tilded. unfold twisted_on_shell_operator_of_imom. assert (Es : (negb (esign =? -1) && negb (esign =? 1))%Z%bool = false) by (destruct Hs as [-> | ->]; reflexivity). rewrite Es. cbn [seq fold_left]. eexists. reflexivity. }
    destruct (X false) as (op & Eop). destruct (X true) as (opt & Eopt). exists op, opt. cbv zeta. split; [exact Eop|]. split; [exact Eopt|].
    destruct (shell_run L bg proj c qu x false esign base op _ m K R G N Nc No Hs Eop) as [_ [A1 A2]]. destruct (shell_run L bg proj c qu x true esign base opt _ m K R G N Nc No Hs Eopt) as [_ [B1 B2]].
    split; [exact A1|]. split; [exact B1|]. split; [intros q Q1 Q2; split; [apply A2|apply B2]; congruence|].
    intros O. assert (O' : on_shell L qu x (IZR esign * tm_quark_energy L qu x)).
    { unfold on_shell in *. destruct Hs as [-> | ->]; cbn [IZR IPR]; [now rewrite Rmult_1_l|]. replace (-1 * tm_quark_energy L qu x)%R with (- tm_quark_energy L qu x)%R by ring. rewrite shell_mass_B, ch_opp, <- shell_mass_B, sh_opp. rewrite <- O. ring. }
    destruct (D_T L qu x base _ O') as [T1 T2]. rewrite A1, B1. split; assumption.
Qed.
Print Assumptions C95_operator.

(** *** the wave functions *)
Lemma apart_at a b i j : apart a b -> a@[i] <> b@[j]. Proof. intros H. exact (H [i] [j]). Qed.
Lemma wave_run L bg wf osp c tmp eig qu x base a t m : kappa qu <> 0%R -> (r qu < 2)%nat -> (a < 2)%nat -> (t < 2)%nat -> gammas_at bg m -> eig_at eig m ->
  apart wf osp -> apart wf eig -> apart wf bg -> apart wf tmp -> apart tmp bg -> apart osp bg -> apart osp eig -> apart c bg -> apart c osp -> apart c eig ->
  let e := tm_quark_energy L qu x in
  let op := (if Nat.eqb a 0 then Ttm else Dtm) base (sgn qu) (mass qu) (shell_mass L qu x e) (shell_sin L (bc qu) x e) in
  exists f, twisted_wavefunction_of_imom L bg wf osp c tmp eig qu x a t base = Some f /\
    (forall i, (i < 4)%nat -> sv (f m) wf i = RtoC (1 / sqrt (mass qu + sinh e)) * dvec (if Nat.eqb a 0 then did else gam 0) (dvec op (ompg0_eig (1 - a) t)) i) /\
    forall q, ~ in_sv wf q -> ~ in_ss osp q -> ~ in_sv tmp q -> q <> c -> f m q = m q.
Proof.
  intros K R Ha Ht G Ge D1 D2 D3 D4 D5 D6 D7 D8 D9 D10 e op. unfold twisted_wavefunction_of_imom.
  set (tilde := nth a [true; false] false). set (ig := nth a [0%nat; iGammaOfMu 0] 0%nat).
  assert (X : exists o, twisted_on_shell_operator_of_imom L bg osp c qu x tilde 1 base = Some (o, e)) by (unfold twisted_on_shell_operator_of_imom; cbn [seq fold_left]; eexists; reflexivity).
  destruct X as (o & Eo). rewrite Eo. eexists. split; [reflexivity|]. rewrite !then_run.
  assert (Nb : bg <> osp) by (intros E; apply (D6 [] []); cbn; congruence).
  destruct (shell_run L bg osp c qu x tilde 1 base o e m K R G Nb (fun i j => D8 [] [j; i]) (fun i j => D9 [] [j; i]) (or_introl eq_refl) Eo) as [_ [R1 R2]].
  cbv zeta in R1. cbn [IZR IPR] in R1. rewrite Rmult_1_l in R1.
  assert (Eop : (if tilde then Ttm else Dtm) base (sgn qu) (mass qu) (shell_mass L qu x e) (shell_sin L (bc qu) x e) = op) by (unfold op, tilde; destruct a as [|[|a]]; [reflexivity|reflexivity|lia]). rewrite Eop in R1. clear Eop.
  set (m1 := o m) in *.
  destruct (unsafe_spinspin_prod_spin_ok wf osp eig@[(1 - a)%nat]@[t] (fun i => D1 [] [i]) (D2 [] [t; (1 - a)%nat]) m1) as [S1 S2]. set (m2 := unsafe_spinspin_prod_spin _ _ _ m1) in *.
  destruct (spin_prod_double_ok wf wf (1 / sqrt (mass qu + sinh e)) m2) as [P1 P2]. unfold spin_prodassign_double. set (m3 := spin_prod_double _ _ _ m2) in *.
  assert (IG : (ig < 16)%nat) by (unfold ig; destruct a as [|[|a]]; cbn; lia).
  unfold safe_dirac_prod_spin. rewrite then_run.
  destruct (unsafe_dirac_prod_spin_ok tmp bg@[ig] (gpos ig) wf (gperm ig IG)) with (m := m3) as [U1 U2]. { intros E. apply (D4 [] []). cbn. congruence. } { exact (D5 [] [ig]). }
  set (m4 := unsafe_dirac_prod_spin _ _ _ _ m3) in *. destruct (spin_copy_ok wf tmp m4) as [V1 V2].
  assert (Fr : forall q, ~ in_sv wf q -> ~ in_ss osp q -> q <> c -> m3 q = m q) by (intros q Q1 Q2 Q3; rewrite P2, S2 by tauto; apply R2; congruence).
  split.
  - intros i Hi. rewrite V1, U1 by exact Hi.
    assert (Eg : deq (dm m3 bg@[ig] (gpos ig)) (if Nat.eqb a 0 then did else gam 0)).
    { transitivity (gk ig). 2: { unfold ig. destruct a as [|[|a]]; [exact (gamma_id junk0)|reflexivity|lia]. }
      intros j k Hj Hk. unfold dm, gk, den. cbn [pos entr]. change (gpos ig j) with (pos (base_gamma junk0 ig) j). destruct (Nat.eqb (pos (base_gamma junk0 ig) j) k); [|reflexivity]. rewrite Fr; [now apply G| | |].
      - intros (k0 & _ & E). symmetry in E. exact (D3 [k0] [j; ig] E).
      - apply bg_out. exact Nb.
      - intros E. symmetry in E. exact (D8 [] [j; ig] E). }
    rewrite (dvec_ext _ (if Nat.eqb a 0 then did else gam 0) _ (fun j => RtoC (1 / sqrt (mass qu + sinh e)) * dvec op (ompg0_eig (1 - a) t) j) i Eg); [apply dvec_sc| |exact Hi].
    intros j Hj. rewrite P1 by exact Hj. f_equal. rewrite S1 by exact Hj. apply dvec_ext; [exact R1| |exact Hj]. intros k Hk. unfold sv. unfold m1. rewrite R2; [apply Ge; lia| |].
    + intros (i' & j' & _ & _ & E). apply at2_inj in E. destruct E as [E _]. symmetry in E. exact (D7 [] [(1 - a)%nat] E).
    + exact (D10 [] [k; t; (1 - a)%nat]).
  - intros q Q1 Q2 Q3 Q4. rewrite V2, U2 by tauto. now apply Fr.
Qed.
Definition d5_of (base : tm_basis_t) (tau m M : R) : R := match base with WILSON_BASE => (tau * m)%R | MAX_TWIST_BASE => (- (tau * M))%R end.
Lemma comb_shell L qu x e base M : deq (comb (shell_sin L (bc qu) x e) (c5_of base (sgn qu) (mass qu) M))
  (comb (s_of (sinh e) (sin (mom L (bc qu) x 1)) (sin (mom L (bc qu) x 2)) (sin (mom L (bc qu) x 3))) (RtoC (d5_of base (sgn qu) (mass qu) M))).
Proof. intros i j _ _. unfold comb, slash, shell_sin, s_of, c5_of, d5_of. cbn [csum Nat.eqb Nat.sub nth]. destruct base; reflexivity. Qed.
(** C95: the wave functions u_s (par_apar=0) and v_s (par_apar=1) solve the Dirac equation on shell with positive and negative energy; they are orthogonal, with norm 2 sinh(E) at maximal
    twist; in the Wilson base the norm is 2 sinh(E) (M+sinh(E))/(m+sinh(E)) *)
Theorem C95_wave : forall L bg wf osp c tmp eig qu x base m, kappa qu <> 0%R -> (r qu < 2)%nat -> gammas_at bg m -> eig_at eig m ->
  apart wf osp -> apart wf eig -> apart wf bg -> apart wf tmp -> apart tmp bg -> apart osp bg -> apart osp eig -> apart c bg -> apart c osp -> apart c eig ->
  let E := tm_quark_energy L qu x in let M := shell_mass L qu x E in on_shell L qu x E ->
  (forall a t, (a < 2)%nat -> (t < 2)%nat -> exists f, twisted_wavefunction_of_imom L bg wf osp c tmp eig qu x a t base = Some f /\
    (forall i, (i < 4)%nat -> dvec (Dshell L qu x base (if Nat.eqb a 0 then E else - E)%R) (sv (f m) wf) i = RtoC 0) /\
    forall q, ~ in_sv wf q -> ~ in_ss osp q -> ~ in_sv tmp q -> q <> c -> f m q = m q) /\
  ((0 < mass qu + sinh E)%R -> forall a t a' t' f f', (a < 2)%nat -> (t < 2)%nat -> (a' < 2)%nat -> (t' < 2)%nat ->
    twisted_wavefunction_of_imom L bg wf osp c tmp eig qu x a t base = Some f -> twisted_wavefunction_of_imom L bg wf osp c tmp eig qu x a' t' base = Some f' ->
    sprod (sv (f m) wf) (sv (f' m) wf) =
      RtoC (if (Nat.eqb a a' && Nat.eqb t t')%bool then match base with MAX_TWIST_BASE => 2 * sinh E | WILSON_BASE => 2 * sinh E * ((M + sinh E) / (mass qu + sinh E)) end else 0)).
Proof.
  intros L bg wf osp c tmp eig qu x base m K R G Ge D1 D2 D3 D4 D5 D6 D7 D8 D9 D10 E M OS.
  assert (Run : forall a t, (a < 2)%nat -> (t < 2)%nat -> _) by (intros a t Ha Ht; exact (wave_run L bg wf osp c tmp eig qu x base a t m K R Ha Ht G Ge D1 D2 D3 D4 D5 D6 D7 D8 D9 D10)). cbv zeta in Run. fold E in Run. fold M in Run.
  set (s := shell_sin L (bc qu) x E) in *. set (k := (1 / sqrt (mass qu + sinh E))%R) in *.
  destruct (D_T L qu x base E OS) as [T1 T2]. fold M in T1, T2. fold s in T1, T2.
  split.
  - intros a t Ha Ht. destruct (Run a t Ha Ht) as (f & Ef & Vf & Ff). exists f. split; [exact Ef|]. split; [|exact Ff]. intros i Hi. unfold Dshell. fold (sgn qu).
    destruct (two a Ha) as [-> | ->]; cbn [Nat.eqb] in *.
    + fold M. fold s. rewrite (dvec_ext _ (Dtm base (sgn qu) (mass qu) M s) _ (fun j => RtoC k * dvec (Ttm base (sgn qu) (mass qu) M s) (ompg0_eig 1 t) j) i); [|reflexivity| |exact Hi].
      * rewrite dvec_sc, <- dvec_mul. rewrite (dvec_ext _ (fun _ _ => RtoC 0) _ (ompg0_eig 1 t) i T1) by auto. unfold dvec. cbn [csum]. ring.
      * intros j Hj. rewrite Vf by exact Hj. f_equal. rewrite <- dvec_mul. apply dvec_ext; [apply dmul_idl|reflexivity|exact Hj].
    + rewrite (dvec_ext _ (Dtm base (sgn qu) (mass qu) (shell_mass L qu x (- E)) (shell_sin L (bc qu) x (- E))) _ (fun j => RtoC k * dvec (gam 0) (dvec (Dtm base (sgn qu) (mass qu) M s) (ompg0_eig 0 t)) j) i); [|reflexivity| |exact Hi].
      * rewrite dvec_sc, <- dvec_mul. rewrite (dvec_ext _ _ _ (dvec (Dtm base (sgn qu) (mass qu) M s) (ompg0_eig 0 t)) i (conj0 L qu x base E)) by auto. fold M. fold s.
        rewrite dvec_mul. rewrite (dvec_ext (gam 0) (gam 0) _ (fun _ => RtoC 0) i); [unfold dvec; cbn [csum]; ring|reflexivity| |exact Hi]. intros j Hj. rewrite <- dvec_mul. rewrite (dvec_ext _ (fun _ _ => RtoC 0) _ (ompg0_eig 0 t) j T2) by auto. unfold dvec. cbn [csum]. ring.
      * intros j Hj. rewrite Vf by exact Hj. reflexivity.
  - intros HP a t a' t' f f' Ha Ht Ha' Ht' Ef Ef'. destruct (Run a t Ha Ht) as (g & Eg & Vg & _). rewrite Ef in Eg. injection Eg as <-. destruct (Run a' t' Ha' Ht') as (g & Eg & Vg' & _). rewrite Ef' in Eg. injection Eg as <-.
    set (p1 := sin (mom L (bc qu) x 1)) in *. set (p2 := sin (mom L (bc qu) x 2)). set (p3 := sin (mom L (bc qu) x 3)). set (c0 := c0_of base (mass qu) M). set (d := d5_of base (sgn qu) (mass qu) M).
    set (so := s_of (sinh E) p1 p2 p3).
    assert (CS : deq (comb s (c5_of base (sgn qu) (mass qu) M)) (comb so (RtoC d))) by (apply comb_shell).
    assert (V : forall b u h, (b < 2)%nat -> (forall i, (i < 4)%nat -> sv (h m) wf i = RtoC k * dvec (if Nat.eqb b 0 then did else gam 0) (dvec ((if Nat.eqb b 0 then Ttm else Dtm) base (sgn qu) (mass qu) M s) (ompg0_eig (1 - b) u)) i) ->
      forall i, (i < 4)%nat -> sv (h m) wf i = RtoC k * (if Nat.eqb b 0 then wave0 c0 so d u i else wave1 c0 so d u i)).
    { intros b u h Hb Hh i Hi. rewrite Hh by exact Hi. f_equal. destruct (two b Hb) as [-> | ->]; cbn [Nat.eqb Nat.sub].
      - rewrite <- dvec_mul. unfold wave0. apply dvec_ext; [|reflexivity|exact Hi]. rewrite dmul_idl, Ttm_comb, CS. reflexivity.
      - unfold wave1. apply dvec_ext; [reflexivity| |exact Hi]. intros j Hj. apply dvec_ext; [|reflexivity|exact Hj]. rewrite Dtm_comb, CS. reflexivity. }
    specialize (V a t f Ha Vg) as V1. specialize (V a' t' f' Ha' Vg') as V2. clear V Vg Vg' Run.
    assert (SP : sprod (sv (f m) wf) (sv (f' m) wf) = RtoC (k * k) * sprod (if Nat.eqb a 0 then wave0 c0 so d t else wave1 c0 so d t) (if Nat.eqb a' 0 then wave0 c0 so d t' else wave1 c0 so d t')).
    { unfold sprod. cbn [csum]. rewrite !V1, !V2 by lia. destruct (Nat.eqb a 0), (Nat.eqb a' 0); rewrite !MatProofs4.Cconj_mult, !RtoC_mult, !MatAlg.Cconj_R; ring. }
    rewrite SP. clear SP V1 V2.
    destruct (wave_norm c0 (sinh E) p1 p2 p3 d t t' Ht Ht') as (N1 & N2 & N3). fold so in N1, N2, N3. destruct (wave_norm c0 (sinh E) p1 p2 p3 d t' t Ht' Ht) as (_ & _ & N4). fold so in N4.
    assert (N5 : sprod (wave1 c0 so d t) (wave0 c0 so d t') = RtoC 0).
    { assert (X : sprod (wave1 c0 so d t) (wave0 c0 so d t') = Cconj (sprod (wave0 c0 so d t') (wave1 c0 so d t))) by (unfold sprod; cbn [csum]; rewrite !MatProofs4.Cconj_plus, !MatProofs4.Cconj_mult, !MatAlg.Cconj_conj, MatAlg.Cconj_R; ring). rewrite X, N4, MatAlg.Cconj_R. reflexivity. }
    assert (KK : (k * k * (mass qu + sinh E) = 1)%R). { unfold k. pose proof (sqrt_sqrt _ (Rlt_le _ _ HP)) as Q. assert (sqrt (mass qu + sinh E) <> 0)%R by (intros Z; rewrite Z in Q; lra). rewrite <- Q at 3. field. assumption. }
    assert (NN : (k * k * ((c0 + sinh E) ^ 2 + (p1 ^ 2 + p2 ^ 2 + p3 ^ 2 + d ^ 2)) = match base with MAX_TWIST_BASE => 2 * sinh E | WILSON_BASE => 2 * sinh E * ((M + sinh E) / (mass qu + sinh E)) end)%R).
    { unfold on_shell in OS. fold M p1 p2 p3 in OS. pose proof (sgn_sq qu) as SG.
      assert (Q : (p1 ^ 2 + p2 ^ 2 + p3 ^ 2 + d ^ 2 = sinh E ^ 2 - c0 ^ 2)%R).
      { assert (DC : (c0 ^ 2 + d ^ 2 = M ^ 2 + mass qu ^ 2)%R). { unfold c0, d, c0_of, d5_of. destruct base; [transitivity (M ^ 2 + (sgn qu * sgn qu) * mass qu ^ 2)%R; [ring|rewrite SG; ring]|transitivity ((sgn qu * sgn qu) * M ^ 2 + mass qu ^ 2)%R; [ring|rewrite SG; ring]]. } lra. }
      rewrite Q. transitivity (k * k * (mass qu + sinh E) * (2 * sinh E * ((c0 + sinh E) / (mass qu + sinh E))))%R; [field; lra|]. rewrite KK, Rmult_1_l. unfold c0, c0_of. destruct base; [reflexivity|field; lra]. }
    assert (NF : RtoC (k * k) * RtoC (2 * (W * W) * (if Nat.eqb t t' then (c0 + sinh E) ^ 2 + (p1 ^ 2 + p2 ^ 2 + p3 ^ 2 + d ^ 2) else 0)) = RtoC (if Nat.eqb t t' then match base with MAX_TWIST_BASE => 2 * sinh E | WILSON_BASE => 2 * sinh E * ((M + sinh E) / (mass qu + sinh E)) end else 0)).
    { rewrite <- RtoC_mult, W_sq, Rmult_1_l. f_equal. destruct (Nat.eqb t t'); [exact NN|ring]. }
    destruct (two a Ha) as [-> | ->], (two a' Ha') as [-> | ->]; cbn [Nat.eqb andb].
    + rewrite N1. exact NF.
    + rewrite N3. ring.
    + rewrite N5. ring.
    + rewrite N2. exact NF.
Qed.
Print Assumptions C95_wave.

(** *** the naive massless quark *)
Definition Dnaive (L : nat -> Z) (th : nat -> R) (x : nat -> Z) (e : R) : dmat := dscale Ci (slash (shell_sin L th x e)).
Definition tabn (w sh p1 p2 p3 : R) (b t i : nat) : C := nth i (nth t (nth b
  [[[(w * (sh + p3), 0); (w * p1, w * p2); (w * (sh - p3), 0); (- (w * p1), - (w * p2))]; [(w * p1, - (w * p2)); (w * (sh - p3), 0); (- (w * p1), w * p2); (w * (sh + p3), 0)]];
   [[(- (w * (sh + p3)), 0); (- (w * p1), - (w * p2)); (w * (sh - p3), 0); (- (w * p1), - (w * p2))]; [(- (w * p1), w * p2); (- (w * (sh - p3)), 0); (- (w * p1), w * p2); (w * (sh + p3), 0)]]] []) [])%R (RtoC 0).
Lemma naive_val sh p1 p2 p3 b t i : (b < 2)%nat -> (t < 2)%nat -> (i < 4)%nat -> dvec (dscale Ci (slash (s_of sh p1 p2 p3))) (ompg0_eig b t) i = tabn W sh p1 p2 p3 b t i.
Proof.
  intros Hb Ht Hi. unfold dvec, s_of, tabn. destruct (two b Hb) as [-> | ->], (two t Ht) as [-> | ->]; (destruct i as [|[|[|[|i]]]]; [| | | |lia]); clear; ev; w_case.
Qed.
Lemma naive_run L bg proj th x esign m : gammas_at bg m -> bg <> proj -> (esign = 1 \/ esign = -1)%Z ->
  exists op, naive_massless_on_shell_operator_of_imom L bg proj th x esign = Some (op, naive_massless_quark_energy L th x) /\
    run (fun _ => False) proj m (op m) (Dnaive L th x (IZR esign * naive_massless_quark_energy L th x)).
Proof.
  intros G N Hs. unfold naive_massless_on_shell_operator_of_imom. assert (Es : (negb (esign =? -1) && negb (esign =? 1))%Z%bool = false) by (destruct Hs as [-> | ->]; reflexivity). rewrite Es. eexists. split; [reflexivity|].
  rewrite then_run. set (e := (IZR esign * _)%R). cbn [iGammaOfMu nth]. destruct (spinspin_dirac_prod_double_ok proj bg@[4%nat] (gpos 4) (- sinh e) (gperm 4 ltac:(lia)) (bgk_out bg proj 4 N) m) as [A B].
  assert (Nc : forall i j, ~ (fun _ : path => False) bg@[i]@[j]) by tauto.
  assert (R0 : run (fun _ => False) proj m m (ss m proj)) by (split; reflexivity). pose proof (gdm _ bg proj 4 m m _ ltac:(lia) N Nc G R0) as E4.
  assert (H0 : run (fun _ => False) proj m (spinspin_dirac_prod_double proj bg@[4%nat] (gpos 4) (- sinh e) m) (dscale (- sinh e)%R (gk 4))) by (split; [rewrite A, E4; reflexivity|exact B]).
  pose proof (run_dirs3 _ bg proj m _ _ (fun mu => sin (mom_of L th x mu)) N Nc G H0) as H1. eapply run_ext; [exact H1|]. intros i j _ _. unfold dadd, dscale, Dnaive, dscale, slash, shell_sin. cbn [csum Nat.eqb]. rewrite !mom_eq. change (gk 4) with (gam 0).
  clear. generalize (gam 0 i j) (gam 1 i j) (gam 2 i j) (gam 3 i j) (sin (mom L th x 1)) (sin (mom L th x 2)) (sin (mom L th x 3)) (sinh e). intros. apply injective_projections; cbn; ring.
Qed.
(** C95: the same for the naive massless quark, at non vanishing energy *)
Theorem C95_naive : forall L bg wf osp eig th x m, gammas_at bg m -> eig_at eig m -> apart wf osp -> apart wf eig -> apart osp bg -> apart osp eig ->
  let E := naive_massless_quark_energy L th x in (0 < E)%R ->
  forall a, (a < 2)%nat -> let D := Dnaive L th x (if Nat.eqb a 0 then E else - E)%R in
  deq (dmul D D) (fun _ _ => RtoC 0) /\
  exists f, (forall t, (t < 2)%nat -> naive_massless_wavefunction_of_imom L bg wf osp eig th x a t = Some (f t)) /\
    (forall t i, (t < 2)%nat -> (i < 4)%nat -> dvec D (sv (f t m) wf) i = RtoC 0) /\
    (forall t t', (t < 2)%nat -> (t' < 2)%nat -> sprod (sv (f t m) wf) (sv (f t' m) wf) = RtoC (if Nat.eqb t t' then 2 * sinh E else 0)).
Proof.
  intros L bg wf osp eig th x m G Ge D1 D2 D6 D7 E HE a Ha D.
  destruct (naiveE L th x) as [_ E2]. cbv zeta in E2. fold E in E2. unfold Sp in E2. set (p1 := sin (mom L th x 1)) in *. set (p2 := sin (mom L th x 2)) in *. set (p3 := sin (mom L th x 3)) in *.
  set (es := if Nat.eqb a 0 then 1%Z else (-1)%Z). assert (Hs : (es = 1 \/ es = -1)%Z) by (unfold es; destruct (Nat.eqb a 0); auto).
  assert (Ee : (if Nat.eqb a 0 then E else - E)%R = (IZR es * E)%R) by (unfold es; destruct (Nat.eqb a 0); cbn [IZR IPR]; ring).
  assert (Nb : bg <> osp) by (intros F; apply (D6 [] []); cbn; congruence).
  destruct (naive_run L bg osp th x es m G Nb Hs) as (op & Eop & R1 & R2). fold E in R1. rewrite <- Ee in R1. fold D in R1.
  set (sh := sinh (if Nat.eqb a 0 then E else - E)%R). assert (SH : (sh ^ 2 = sinh E ^ 2)%R) by (unfold sh; destruct (Nat.eqb a 0); [reflexivity|rewrite sh_opp; ring]).
  assert (ED : deq D (dscale Ci (slash (s_of sh p1 p2 p3)))) by (intros i j _ _; unfold D, Dnaive, dscale, slash, shell_sin, s_of; cbn [csum Nat.eqb Nat.sub nth]; reflexivity).
  assert (DD : deq (dmul D D) (fun _ _ => RtoC 0)).
  { assert (EC : deq D (dscale Ci (comb (s_of sh p1 p2 p3) (RtoC 0)))) by (rewrite ED; intros i j _ _; unfold comb, dscale; ring).
    rewrite EC. intros i j Hi Hj. rewrite dm_scl, dm_scr, (comb_sq _ _ i j Hi Hj). unfold dscale, sqs, s_of. cbn [Nat.eqb Nat.sub nth].
    transitivity (Ci * Ci * (RtoC (p1 ^ 2 + p2 ^ 2 + p3 ^ 2 - sh ^ 2) * did i j)); [destruct (did i j); apply injective_projections; cbn; ring|]. rewrite SH, E2. rewrite Rminus_diag_eq by reflexivity. ring. }
  split; [exact DD|]. assert (SE : (0 < sinh E)%R) by (rewrite <- sinh_0; now apply sinh_lt).
  assert (X : nth a [1; -1]%Z 0%Z = es) by (unfold es; destruct (two a Ha) as [-> | ->]; reflexivity).
  exists (fun t => op;; unsafe_spinspin_prod_spin wf osp eig@[(1 - a)%nat]@[t];; spin_prodassign_double wf (-1 / sqrt (sinh E))).
  assert (V : forall t i, (t < 2)%nat -> (i < 4)%nat -> sv ((op;; unsafe_spinspin_prod_spin wf osp eig@[(1 - a)%nat]@[t];; spin_prodassign_double wf (-1 / sqrt (sinh E))) m) wf i = RtoC (-1 / sqrt (sinh E)) * dvec D (ompg0_eig (1 - a) t) i).
  { intros t i Ht Hi. rewrite !then_run. destruct (unsafe_spinspin_prod_spin_ok wf osp eig@[(1 - a)%nat]@[t] (fun i => D1 [] [i]) (D2 [] [t; (1 - a)%nat]) (op m)) as [S1 _].
    unfold spin_prodassign_double. destruct (spin_prod_double_ok wf wf (-1 / sqrt (sinh E)) (unsafe_spinspin_prod_spin wf osp eig@[(1 - a)%nat]@[t] (op m))) as [P1 _]. rewrite P1 by exact Hi. f_equal. rewrite S1 by exact Hi.
    apply dvec_ext; [exact R1| |exact Hi]. intros k Hk. unfold sv. rewrite R2; [apply Ge; lia| |tauto]. intros (i' & j' & _ & _ & F). apply at2_inj in F. destruct F as [F _]. symmetry in F. exact (D7 [] [(1 - a)%nat] F). }
  split; [|split].
  - intros t Ht. unfold naive_massless_wavefunction_of_imom. rewrite X, Eop. reflexivity.
  - intros t i Ht Hi. rewrite (dvec_ext D D _ (fun j => RtoC (-1 / sqrt (sinh E)) * dvec D (ompg0_eig (1 - a) t) j) i); [|reflexivity|intros j Hj; now apply V|exact Hi].
    rewrite dvec_sc, <- dvec_mul. rewrite (dvec_ext _ (fun _ _ => RtoC 0) _ (ompg0_eig (1 - a) t) i DD) by auto. unfold dvec. cbn [csum]. ring.
  - intros t t' Ht Ht'. unfold sprod. cbn [csum]. rewrite !V by lia.
    assert (Y : forall u i, (u < 2)%nat -> (i < 4)%nat -> dvec D (ompg0_eig (1 - a) u) i = tabn W sh p1 p2 p3 (1 - a) u i) by (intros u i Hu Hi; rewrite <- naive_val by lia; now apply dvec_ext).
    rewrite !Y by lia. pose proof (sqrt_sqrt _ (Rlt_le _ _ SE)) as Q. set (k := (-1 / sqrt (sinh E))%R).
    assert (KK : (k * k * sinh E = 1)%R) by (unfold k; assert (sqrt (sinh E) <> 0)%R by (intros Z; rewrite Z in Q; lra); rewrite <- Q at 3; field; assumption).
    assert (RR : (k * k * (2 * (W * W)) * (sh ^ 2 + (p1 ^ 2 + p2 ^ 2 + p3 ^ 2)) = 2 * sinh E)%R) by (rewrite W_sq, SH, <- E2; transitivity (k * k * sinh E * (2 * sinh E))%R; [ring|rewrite KK; ring]).
    transitivity (RtoC (if Nat.eqb t t' then k * k * (2 * (W * W)) * (sh ^ 2 + (p1 ^ 2 + p2 ^ 2 + p3 ^ 2)) else 0)); [|f_equal; destruct (Nat.eqb t t'); [exact RR|reflexivity]].
    clearbody k sh p1 p2 p3. generalize W. intros w. assert (H1 : (1 - a = 0)%nat \/ (1 - a = 1)%nat) by (clear; lia). revert Ht Ht'. clear - H1. intros Ht Ht'.
    unfold tabn. destruct H1 as [-> | ->], (two t Ht) as [-> | ->], (two t' Ht') as [-> | ->]; clear; cbn [nth Nat.eqb]; apply injective_projections; cbn; ring.
Qed.
Print Assumptions C95_naive.

(** *** Example: mass 1, kappa 1/8, null momentum: the condition on the energy is met, and cosh E = 3/2 *)
Definition sx_qu : TmQuarkInfo := {| kappa := 1 / 8; mass := 1; bc := fun _ => 0; zmp := 0; r := 1 |}.
Definition sx_L : nat -> Z := fun _ => 4%Z.
Lemma sx_mom mu : mom sx_L (bc sx_qu) (fun _ => 0%Z) mu = 0%R. Proof. unfold mom. cbn [bc sx_qu]. unfold Rdiv. rewrite Rmult_0_l, Rplus_0_r, Rmult_0_r, Rmult_0_l. reflexivity. Qed.
Example C95_ex : on_shell sx_L sx_qu (fun _ => 0%Z) (tm_quark_energy sx_L sx_qu (fun _ => 0%Z)) /\ cosh (tm_quark_energy sx_L sx_qu (fun _ => 0%Z)) = (3 / 2)%R.
Proof.
  assert (B : Bk sx_L sx_qu (fun _ => 0%Z) = 1%R) by (unfold Bk; rewrite !sx_mom, cos_0; cbn; field).
  assert (K : kappa sx_qu <> 0%R) by (cbn; lra). destruct (cosE sx_L sx_qu (fun _ => 0%Z) K ltac:(rewrite B; lra)) as [_ C]. split.
  - apply on_shell_iff; [rewrite B; lra|exact C].
  - rewrite C, B. unfold Sp. rewrite !sx_mom, sin_0. cbn. field.
Qed.
Definition sx_mem : mem := fun p => match p with [i; k; _] => entr (base_gamma junk0 k) i | [i; s; a; _] => ompg0_eig a s i | _ => RtoC 0 end.
(** the objects of the wave function, and the two wave functions of the quark *)
Example C95_ex_wave : exists f, twisted_wavefunction_of_imom sx_L [9%nat] [0%nat] [1%nat] [2%nat] [3%nat] [8%nat] sx_qu (fun _ => 0%Z) 0 0 MAX_TWIST_BASE = Some f /\
  sprod (sv (f sx_mem) [0%nat]) (sv (f sx_mem) [0%nat]) = RtoC (2 * sinh (tm_quark_energy sx_L sx_qu (fun _ => 0%Z))).
Proof.
  destruct C95_ex as [O C]. assert (K : kappa sx_qu <> 0%R) by (cbn; lra).
  assert (AP : forall a b, a <> b -> apart [a] [b]) by (intros a b N p q E; apply app_inj_tail in E; destruct E; congruence).
  destruct (C95_wave sx_L [9%nat] [0%nat] [1%nat] [2%nat] [3%nat] [8%nat] sx_qu (fun _ => 0%Z) MAX_TWIST_BASE sx_mem K ltac:(cbn; lia) ltac:(intros k i _ _; reflexivity) ltac:(intros a s i _ _ _; reflexivity)
    (AP 0%nat 1%nat ltac:(lia)) (AP 0%nat 8%nat ltac:(lia)) (AP 0%nat 9%nat ltac:(lia)) (AP 0%nat 3%nat ltac:(lia)) (AP 3%nat 9%nat ltac:(lia)) (AP 1%nat 9%nat ltac:(lia)) (AP 1%nat 8%nat ltac:(lia)) (AP 2%nat 9%nat ltac:(lia)) (AP 2%nat 1%nat ltac:(lia)) (AP 2%nat 8%nat ltac:(lia)) O) as [H1 H2].
  destruct (H1 0%nat 0%nat ltac:(lia) ltac:(lia)) as (f & Ef & _). exists f. split; [exact Ef|].
  rewrite (H2 ltac:(destruct (cosE sx_L sx_qu (fun _ => 0%Z) K) as [P _]; [unfold Bk; rewrite !sx_mom, cos_0; cbn [kappa sx_qu]; replace (/ (2 * (1 / 8)))%R with 4%R by field; lra|apply sh_pos in P; cbn [mass sx_qu]; lra]) 0%nat 0%nat 0%nat 0%nat f f) by (lia || exact Ef). reflexivity.
Qed.
