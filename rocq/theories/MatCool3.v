From Coq Require Import Reals Lra Lia List Bool FunctionalExtensionality.
From Coquelicot Require Import Complex.
From Verif Require Import CplxModel CplxSpec CplxProofs CplxStores MatModel MatSpec MatProofs MatRun MatProofs2 MatProofs3 MatProofs4 MatAlg MatUnit MatUnit2 MatAlgoModel MatSu2 MatCool MatCool2.
Import ListNotations.
Open Scope C_scope.
Set Bullet Behavior "Strict Subproofs".

Lemma moved_sym_args a b md row m m' h : moved a b md row m m' h -> moved b a md row m m' h.
Proof. intros (S & A & B & F). repeat split; auto; try apply S. intros p (P1 & P2 & P3). apply F. repeat split; assumption. Qed.
Lemma moved_su a b md row m m' h : moved a b md row m m' h -> special_unitary (mat m a) -> special_unitary (mat m' a).
Proof. intros (S & A & _) H. rewrite A. now apply su_mul. Qed.
(** the product stays that of the link and of the dagger of x *)
Lemma moved_prod a b md row m m' h x : moved a b md row m m' h -> meq (mat m b) (mmul (mat m a) x) -> meq (mat m' b) (mmul (mat m' a) x).
Proof. intros (S & A & B & _) H. rewrite A, B, H, mmul_assoc. reflexivity. Qed.

(** prod = U M^dag *)
Lemma start_prod U M prod m : prod <> U -> prod <> M -> let m1 := unsafe_su3_prod_su3_dag prod U M NCOL m in
  meq (mat m1 U) (mat m U) /\ meq (mat m1 prod) (mmul (mat m1 U) (dag (mat m M))) /\ forall p, ~ in_mat prod p -> m1 p = m p.
Proof.
  intros N1 N2 m1. destruct (unsafe_su3_prod_su3_dag_ok prod U M N1 N2 m) as [E F]. fold m1 in E, F.
  assert (EU : meq (mat m1 U) (mat m U)) by (intros i j Hi Hj; apply F; [apply not_in; congruence|tauto]).
  split; [exact EU|]. split; [rewrite EU; exact E|]. intros p P. now apply F.
Qed.


Lemma iteration_ok U M prod md row m : U <> prod -> prod <> M -> su2_apart U md row -> su2_apart prod md row ->
  let m' := maximal_trace_iteration U M prod md row m in
  (special_unitary (mat m U) -> special_unitary (mat m' U)) /\
  (fst (trace (mmul (mat m U) (dag (mat m M)))) <= fst (trace (mmul (mat m' U) (dag (mat m M)))))%R /\
  maximal_trace_iteration_ret m' prod = fst (trace (mmul (mat m' U) (dag (mat m M)))) /\
  (forall p, ~ in_mat U p -> ~ loc4 prod md row p -> m' p = m p).
Proof.
  intros N1 N2 Ha Hb m'. subst m'. unfold maximal_trace_iteration. rewrite then_run.
  destruct (start_prod U M prod m (not_eq_sym N1) N2) as (EU & EP & F). set (m1 := unsafe_su3_prod_su3_dag prod U M NCOL m) in *.
  clearbody m1. match goal with |- context [for_cols ?f m1] => change f with (cool_step U prod md row) end. rewrite for_cols_seq, !then_run.
  destruct (cool_step_ok U prod md row N1 Ha Hb 0 m1) as [[h0 M0] T0]. set (m2 := cool_step U prod md row 0 m1) in *. clearbody m2.
  destruct (cool_step_ok U prod md row N1 Ha Hb 1 m2) as [[h1 M1] T1]. set (m3 := cool_step U prod md row 1 m2) in *. clearbody m3.
  destruct (cool_step_ok U prod md row N1 Ha Hb 2 m3) as [[h2 M2] T2]. set (m4 := cool_step U prod md row 2 m3) in *. clearbody m4.
  pose proof (moved_trans _ _ _ _ _ _ _ _ _ (moved_trans _ _ _ _ _ _ _ _ _ M0 M1) M2) as Mv.
  pose proof (moved_prod _ _ _ _ _ _ _ _ Mv EP) as EP'. unfold retr in *. split; [|split; [|split]].
  - intros S. apply (moved_su _ _ _ _ _ _ _ Mv). rewrite EU. exact S.
  - rewrite <- EU, <- EP, <- EP'. lra.
  - unfold maximal_trace_iteration_ret. rewrite su3_real_trace_ok, EP'. reflexivity.
  - intros p P1 P2. destruct Mv as (_ & _ & _ & Fr). rewrite Fr; [|repeat split; [exact P1| |]; intros Q; apply P2; [now left|now right]].
    apply F. intros Q. apply P2. now left.
Qed.

Definition over_step2 (out prod md row : path) (s : nat) (m : mem) : mem :=
  let q := su2_get_overrelaxing (su2_part m prod s) in (su2_prodassign_su3 q s prod md row;; su2_prodassign_su3 q s out md row) m.
Lemma over_step2_ok out prod md row s m : out <> prod -> su2_apart out md row -> su2_apart prod md row ->
  exists h, moved out prod md row m (over_step2 out prod md row s m) h /\ retr prod (over_step2 out prod md row s m) = retr prod m.
Proof.
  intros N1 Ha Hb. destruct (part_ok m prod s) as (N & N0 & Q & _). eexists. split.
  - apply moved_sym_args. apply pair_moved; [congruence|exact Hb|exact Ha|now apply qnorm_over].
  - unfold retr at 1, over_step2. destruct (pair_step prod out md row (not_eq_sym N1) Hb Ha (su2_get_overrelaxing (su2_part m prod s)) s m) as (E & _). rewrite E. apply tr_over.
Qed.
Lemma overrelaxed_ok out inp S prod md row n m : out <> prod -> inp <> prod -> prod <> S -> su2_apart out md row -> su2_apart prod md row ->
  let m' := su3_find_overrelaxed out inp S n prod md row m in
  (special_unitary (mat m inp) -> special_unitary (mat m' out)) /\
  fst (trace (mmul (mat m' out) (dag (mat m S)))) = fst (trace (mmul (mat m inp) (dag (mat m S)))) /\
  (forall p, ~ in_mat out p -> ~ loc4 prod md row p -> m' p = m p).
Proof.
  intros N1 N2 N3 Ha Hb m'. subst m'. unfold su3_find_overrelaxed. rewrite !then_run.
  destruct (start_prod inp S prod m (not_eq_sym N2) N3) as (EU & EP & F). set (m1 := unsafe_su3_prod_su3_dag prod inp S NCOL m) in *. clearbody m1.
  set (m2 := (if path_dec out inp then fun m => m else su3_copy out inp) m1).
  assert (C : meq (mat m2 out) (mat m inp) /\ meq (mat m2 prod) (mmul (mat m2 out) (dag (mat m S))) /\ forall p, ~ in_mat out p -> ~ in_mat prod p -> m2 p = m p).
  { unfold m2. destruct (path_dec out inp) as [->|D].
    - split; [exact EU|]. split; [exact EP|]. intros p _ P. now apply F.
    - destruct (su3_copy_ok out inp out 0%R 0%R m1) as [E1 E2]. split; [rewrite E1; exact EU|]. split.
      + rewrite E1. assert (E : meq (mat (su3_copy out inp m1) prod) (mat m1 prod)) by (intros i j Hi Hj; apply E2; [apply not_in; congruence|tauto]).
        rewrite E. exact EP.
      + intros p P1 P2. rewrite E2 by tauto. now apply F. }
  clearbody m2. clear EU EP F m1. destruct C as (CU & CP & CF).
  match goal with |- context [for_cols ?f] => change f with (over_step2 out prod md row) end. set (st := for_cols (over_step2 out prod md row)).
  assert (St : forall mm, exists h, moved out prod md row mm (st mm) h /\ retr prod (st mm) = retr prod mm).
  { intros mm. unfold st. rewrite for_cols_seq, !then_run.
    destruct (over_step2_ok out prod md row 0%nat mm N1 Ha Hb) as (h0 & M0 & T0). set (ma := over_step2 out prod md row 0%nat mm) in *. clearbody ma.
    destruct (over_step2_ok out prod md row 1%nat ma N1 Ha Hb) as (h1 & M1 & T1). set (mb := over_step2 out prod md row 1%nat ma) in *. clearbody mb.
    destruct (over_step2_ok out prod md row 2%nat mb N1 Ha Hb) as (h2 & M2 & T2).
    eexists. split; [exact (moved_trans _ _ _ _ _ _ _ _ _ (moved_trans _ _ _ _ _ _ _ _ _ M0 M1) M2)|]. congruence. }
  assert (Rp : forall k mm, exists h, moved out prod md row mm (repeat_op k st mm) h /\ retr prod (repeat_op k st mm) = retr prod mm).
  { clearbody st. clear - St. induction k as [|k IH]; intros mm; cbn [repeat_op]; [exists mid; split; [apply moved_refl|reflexivity]|].
    destruct (St mm) as (h & M1 & T1). destruct (IH (st mm)) as (h' & M2 & T2). eexists. split; [exact (moved_trans _ _ _ _ _ _ _ _ _ M1 M2)|congruence]. }
  destruct (Rp n m2) as (h & Mv & T). pose proof (moved_prod _ _ _ _ _ _ _ _ Mv CP) as EP'. unfold retr in T. split; [|split].
  - intros Su. apply (moved_su _ _ _ _ _ _ _ Mv). rewrite CU. exact Su.
  - rewrite <- EP', T, CP, CU. reflexivity.
  - intros p P1 P2. destruct Mv as (_ & _ & _ & Fr). rewrite Fr; [|repeat split; [exact P1| |]; intros Q; apply P2; [now left|now right]].
    apply CF; [exact P1|]. intros Q. apply P2. now left.
Qed.

(** ** Projection by maximisation of the trace *)
Lemma mt_pass_ok U prod md row prec iter m rot : U <> prod -> su2_apart U md row -> su2_apart prod md row ->
  exists h m' rot' cv', mt_pass prec iter U prod md row m rot = (m', rot', cv') /\ moved U prod md row m m' h /\ (retr prod m <= retr prod m')%R.
Proof. intros N1 Ha Hb. unfold mt_pass. apply mt_fold_ok; assumption. Qed.
Lemma tol_pos : ~ (1e-15 < 0)%R.
Proof. lra. Qed.
Section Mt.
Context (refix : mem -> mem) (prec : R) (niter : nat) (M U prod md row : path) (N1 : U <> prod) (Ha : su2_apart U md row) (Hb : su2_apart prod md row).
Definition mt_refix (rot : R) (m : mem) : mem :=
  if Rlt_dec rot (sqrt prec) then if Rlt_dec 1e-15 (su3_get_non_unitariness m U) then (refix;; unsafe_su3_prod_su3_dag prod U M NCOL) m else m else m.
Definition mt_stop (iter : nat) : bool := if Rlt_dec (INR niter * 0.9) (INR (S iter)) then Nat.ltb niter (S iter) else false.
Lemma mt_loop_S fuel iter rot m : mt_loop (S fuel) refix prec niter M U prod md row iter rot m =
  let '(m1, rot1, cv) := mt_pass prec iter U prod md row m rot in
  if mt_stop iter then Crash else if cv then Ret (mt_refix rot1 m1) else mt_loop fuel refix prec niter M U prod md row (S iter) rot1 (mt_refix rot1 m1).
Proof. reflexivity. Qed.
Lemma mt_refix_id rot m : unitary (mat m U) -> mt_refix rot m = m.
Proof.
  intros H. unfold mt_refix. destruct (Rlt_dec rot (sqrt prec)); [|reflexivity]. rewrite (unitary_0 m U H).
  destruct (Rlt_dec 1e-15 0) as [B|_]; [exfalso; exact (tol_pos B)|reflexivity].
Qed.
Lemma mt_loop_ok fuel : forall iter rot m m', special_unitary (mat m U) -> mt_loop fuel refix prec niter M U prod md row iter rot m = Ret m' ->
  exists h, moved U prod md row m m' h /\ (retr prod m <= retr prod m')%R.
Proof.
  induction fuel as [|fuel IH]; intros iter rot m m' Su E; [discriminate E|]. rewrite mt_loop_S in E.
  destruct (mt_pass_ok U prod md row prec iter m rot N1 Ha Hb) as (h & m1 & r1 & c1 & F & Mv & T).
  rewrite F in E. pose proof (moved_su _ _ _ _ _ _ _ Mv Su) as Su1. rewrite (mt_refix_id r1 m1 (proj1 Su1)) in E.
  destruct (mt_stop iter); [discriminate E|]. destruct c1.
  - injection E as <-. exists h. split; assumption.
  - destruct (IH _ _ _ _ Su1 E) as (k & Mv2 & T2). eexists. split; [exact (moved_trans _ _ _ _ _ _ _ _ _ Mv Mv2)|lra].
Qed.
Lemma mt_loop_ends fuel : forall iter rot m, (niter < fuel + iter)%nat -> mt_loop fuel refix prec niter M U prod md row iter rot m <> Timeout \/ fuel = 0%nat.
Proof.
  induction fuel as [|fuel IH]; intros iter rot m H; [now right|left]. rewrite mt_loop_S.
  destruct (mt_pass prec iter U prod md row m rot) as [[m1 r1] c1]. destruct (mt_stop iter) eqn:B; [discriminate|]. destruct c1; [discriminate|].
  match goal with |- mt_loop fuel _ _ _ _ _ _ _ _ _ ?r ?mm <> _ => destruct (IH (S iter) r mm ltac:(lia)) as [K|K] end; [exact K|].
  exfalso. subst fuel. assert (L : (niter < S iter)%nat) by lia. revert B. unfold mt_stop.
  destruct (Rlt_dec (INR niter * 0.9) (INR (S iter))) as [_|F].
  - destruct (Nat.ltb_spec niter (S iter)); [discriminate|lia].
  - intros _. apply F. pose proof (lt_INR _ _ L). pose proof (pos_INR niter). lra.
Qed.
End Mt.
Lemma maximal_trace_ok fuel refix prec niter out M U prod md row m m' :
  U <> prod -> prod <> M -> U <> M -> su2_apart U md row -> su2_apart prod md row ->
  su3_unitarize_maximal_trace_projecting fuel refix prec niter out M U prod md row m = Ret m' ->
  special_unitary (mat m' out) /\
  (fst (trace (dag (mat m M))) <= fst (trace (mmul (mat m' out) (dag (mat m M)))))%R /\
  (forall p, ~ in_mat out p -> ~ in_mat U p -> ~ loc4 prod md row p -> m' p = m p).
Proof.
  intros N1 N2 N3 Ha Hb E. unfold su3_unitarize_maximal_trace_projecting in E. cbv zeta in E. rewrite then_run in E.
  destruct (su3_put_to_id_ok U m) as [I1 I2]. set (m0 := su3_put_to_id U m) in *.
  destruct (start_prod U M prod m0 (not_eq_sym N1) N2) as (EU & EP & F). set (m1 := unsafe_su3_prod_su3_dag prod U M NCOL m0) in *.
  assert (EM : meq (mat m0 M) (mat m M)) by (intros i j Hi Hj; apply I2; [apply not_in; congruence|tauto]). rewrite EM in EP.
  assert (IU : meq (mat m1 U) mid) by (rewrite EU; exact I1).
  destruct (mt_loop fuel refix prec niter M U prod md row 0 1e300 m1) as [m2| |] eqn:L; [|discriminate|discriminate]. injection E as <-.
  assert (S1 : special_unitary (mat m1 U)) by (rewrite IU; apply su_1).
  destruct (mt_loop_ok refix prec niter M U prod md row N1 Ha Hb fuel _ _ _ _ S1 L) as (h & Mv & T).
  pose proof (moved_prod _ _ _ _ _ _ _ _ Mv EP) as EP'. pose proof (moved_su _ _ _ _ _ _ _ Mv S1) as S2.
  destruct (su3_copy_ok out U out 0%R 0%R m2) as [C1 C2]. split; [|split].
  - rewrite C1. exact S2.
  - rewrite C1, <- EP'. unfold retr in T. rewrite EP in T. rewrite IU, mmul_1_l in T. exact T.
  - intros p P1 P2 P3. rewrite C2 by tauto. destruct Mv as (_ & _ & _ & Fr). rewrite Fr; [|repeat split; [exact P2| |]; intros Q; apply P3; [now left|now right]].
    rewrite F by (intros Q; apply P3; now left). apply I2; tauto.
Qed.
Lemma maximal_trace_ends fuel refix prec niter out M U prod md row m : (niter < fuel)%nat ->
  su3_unitarize_maximal_trace_projecting fuel refix prec niter out M U prod md row m <> Timeout.
Proof.
  intros H. unfold su3_unitarize_maximal_trace_projecting. cbv zeta.
  match goal with |- context [mt_loop fuel refix prec niter M U prod md row 0 ?r ?mm] => destruct (mt_loop_ends refix prec niter M U prod md row fuel 0 r mm ltac:(lia)) as [K|K];
    [destruct (mt_loop fuel refix prec niter M U prod md row 0 r mm); congruence|lia] end.
Qed.
