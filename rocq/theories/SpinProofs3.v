From Coq Require Import Reals Lra Lia List FunctionalExtensionality.
From Coquelicot Require Import Complex.
From Verif Require Import CplxModel CplxSpec CplxProofs CplxStores MatModel MatSpec MatProofs MatRun DiracModel DiracSpec DiracProofs SpinModel SpinSpec SpinProofs SpinProofs2 ParLoop.
Import ListNotations.
Open Scope C_scope.
Set Bullet Behavior "Strict Subproofs".

(** matrix times vector *)
Lemma accumulate a (f : nat -> nat -> mem -> C) body : (forall i k, (i < 4)%nat -> (k < 4)%nat -> forall m, body i k m = upd m a@[i] (m a@[i] + f i k m)) ->
  (forall i k j m x, (i < 4)%nat -> (k < 4)%nat -> (j < 4)%nat -> f i k (upd m a@[j] x) = f i k m) ->
  sets_sv (spin_put_to_zero a;; for_spin (fun i => for_spin (body i))) a (fun m i => csum 4 (fun k => f i k m)).
Proof.
  intros Hb Hf m. rewrite then_run. destruct (spin_put_to_zero_ok a m) as [Z1 Z2]. set (m0 := spin_put_to_zero a m) in *.
  assert (Fm : forall i k, (i < 4)%nat -> (k < 4)%nat -> f i k m0 = f i k m).
  { intros i k Hi Hk. unfold m0, spin_put_to_zero, for_spin, unroll_for, NDIRAC. cbn [seq fold_left Nat.sub]. rewrite !complex_put_to_zero_st, !Hf by lia. reflexivity. }
  destruct (sv_loop_gen (fun i => for_spin (body i)) (fun i => a@[i]) (fun i m => m a@[i] + csum 4 (fun k => f i k m))) with (m := m0) as [H1 H2].
  - intros i Hi. apply sets_of. intros m'. unfold for_spin, unroll_for, NDIRAC. cbn [seq fold_left Nat.sub csum].
    rewrite !Hb by lia. rewrite ?upd_upd, ?upd_same. rewrite !Hf by lia. f_equal. ring.
  - intros i i' Hi Hi' N. split; [unfold at_; congruence|]. intros m' x. rewrite upd_other by (unfold at_; congruence). f_equal. apply csum_ext. intros k Hk. apply Hf; assumption.
  - split.
    + intros i Hi. unfold sv at 1. rewrite H1 by exact Hi. pose proof (Z1 i Hi) as Z. unfold sv in Z. rewrite Z.
      transitivity (csum 4 (fun k => f i k m0)); [ring|]. apply csum_ext. intros k Hk. apply Fm; assumption.
    + intros q Hq _. rewrite H2; [apply Z2; [exact Hq|tauto]|]. intros i Hi ->. apply Hq. exists i. auto.
Qed.
Lemma unsafe_spinspin_prod_spin_ok a b c : (forall i, a <> b@[i]) -> a <> c -> sets_sv (unsafe_spinspin_prod_spin a b c) a (fun m => dvec (ss m b) (sv m c)).
Proof.
  intros Hb Hc. apply (accumulate a (fun i k m => m b@[i]@[k] * m c@[k])).
  - intros i k Hi Hk m. apply complex_summ_the_prod_st.
  - intros. rewrite !upd_other by sneq. reflexivity.
Qed.
Lemma unsafe_spin_prod_spinspin_ok a b c : (forall i, a <> c@[i]) -> a <> b -> sets_sv (unsafe_spin_prod_spinspin a b c) a (fun m => vdec (sv m b) (ss m c)).
Proof.
  intros Hb Hc. apply (accumulate a (fun i k m => m b@[k] * m c@[k]@[i])).
  - intros i k Hi Hk m. apply complex_summ_the_prod_st.
  - intros. rewrite !upd_other by sneq. reflexivity.
Qed.

(** diagonal matrices *)
Lemma spinspin_put_to_diag_complex_ok a b : (forall i j, b <> a@[i]@[j]) -> sets_ss (spinspin_put_to_diag_complex a b) a (fun m => dscale (m b) did).
Proof.
  intros N m. unfold spinspin_put_to_diag_complex. rewrite then_run. destruct (spinspin_put_to_zero_ok a m) as [Z1 Z2]. set (m0 := spinspin_put_to_zero a m) in *.
  destruct (sv_loop_gen (fun id => complex_copy a@[id]@[id] b) (fun i => a@[i]@[i]) (fun _ m => m b)) with (m := m0) as [H1 H2].
  - intros i Hi. apply complex_copy_ok; assumption || exact 0%R.
  - intros i i' Hi Hi' Hn. split; [unfold at_; congruence|]. intros. rewrite upd_other by apply N. reflexivity.
  - assert (B : m0 b = m b) by (apply Z2; [intros (i & j & _ & _ & E); apply (N i j E)|tauto]).
    split.
    + intros i j Hi Hj. unfold ss, dscale, did. destruct (Nat.eqb_spec i j) as [<-|E].
      * rewrite H1, B by exact Hi. ring.
      * rewrite H2; [pose proof (Z1 i j Hi Hj) as Z; unfold ss in Z; rewrite Z; ring|]. intros k Hk F. apply at2_inj in F. destruct F as (_ & -> & ->). congruence.
    + intros q Hq _. rewrite H2; [apply Z2; [exact Hq|tauto]|]. intros i Hi ->. apply Hq. exists i, i. auto.
Qed.
Lemma spinspin_put_to_diag_double_ok a (r : R) c : (forall i j, c <> a@[i]@[j]) -> sets_ss_loc (eq c) (spinspin_put_to_diag_double a r c) a (fun m => dscale r did).
Proof.
  intros N m. unfold spinspin_put_to_diag_double. rewrite !then_run. set (m0 := set_im c 0 (set_re c r m)).
  assert (E : m0 = upd m c (RtoC r)). { unfold m0, set_re, set_im, re, im. rewrite upd_same, upd_upd. reflexivity. }
  destruct (spinspin_put_to_diag_complex_ok a c N m0) as [A B]. split.
  - intros i j Hi Hj. rewrite A, E, upd_same by assumption. reflexivity.
  - intros q Q1 Q2. rewrite B by tauto. rewrite E. apply upd_other. congruence.
Qed.
Lemma spinspin_put_to_id_ok a c : (forall i j, c <> a@[i]@[j]) -> sets_ss_loc (eq c) (spinspin_put_to_id a c) a (fun m => did).
Proof.
  intros N. eapply ss_val; [exact (spinspin_put_to_diag_double_ok a 1 c N)|]. intros m i j Hi Hj. unfold dscale. ring.
Qed.

(** rotation to the physical basis *)
Definition twist (r : nat) : dirac_matr := if Nat.eqb r 0 then Pplus else Pminus.
Lemma assign_i_st a m : assign_complex_prod_i a m = upd m a (Ci * m a). Proof. exact (sets_eq _ _ _ (assign_complex_prod_i_ok a a a 0%R 0%R) m). Qed.
Lemma assign_minus_i_st a m : assign_complex_prod_minus_i a m = upd m a (- Ci * m a). Proof. exact (sets_eq _ _ _ (assign_complex_prod_minus_i_ok a a a 0%R 0%R) m). Qed.
Definition blk (prs psi : nat) (i j : nat) : bool := (Nat.eqb (i / 2) prs && Nat.eqb (j / 2) psi)%bool.
Lemma blocks s po pi mo mi m : (po < 2)%nat -> (pi < 2)%nat -> mo = (1 - po)%nat -> mi = (1 - pi)%nat ->
  let o := unroll_for 0 2 (fun dso => unroll_for 0 2 (fun dsi =>
    assign_complex_prod_i s@[dso + 2 * po]@[dsi + 2 * pi];; assign_complex_prod_minus_i s@[dso + 2 * mo]@[dsi + 2 * mi])) in
  (forall i j, (i < 4)%nat -> (j < 4)%nat -> o m s@[i]@[j] = if blk po pi i j then Ci * m s@[i]@[j] else if blk mo mi i j then - Ci * m s@[i]@[j] else m s@[i]@[j]) /\
  forall q, ~ in_ss s q -> o m q = m q.
Proof.
  intros H1 H2 H3 H4 o. subst mo mi. unfold o. rewrite !unroll_02.
  destruct po as [|[|?]]; [| |lia]; destruct pi as [|[|?]]; [| |lia| | |lia]; cbn [Nat.add Nat.mul Nat.sub];
  rewrite !then_run; rewrite ?assign_i_st, ?assign_minus_i_st; clear;
  (split; [intros i j Hi Hj; revert i Hi; refine (lt4 _ _ _ _ _); revert j Hj; refine (lt4 _ _ _ _ _); unfold blk; cbn [Nat.div Nat.divmod fst snd Nat.eqb andb Nat.sub]; srd; reflexivity|
    intros q Hq; rewrite !upd_other by (apply inss_neq; [exact Hq|lia|lia]); reflexivity]).
Qed.
Lemma rotate_ok s rsi rso : (rsi < 2)%nat -> (rso < 2)%nat ->
  sets_ss (rotate_spinspin_to_physical_basis s rsi rso) s (fun m => dmul (den (twist rso)) (dmul (ss m s) (den (twist rsi)))).
Proof.
  intros Hi Ho m.
  pose proof rad2_sq as RQ.
  assert (B : rotate_spinspin_to_physical_basis s rsi rso = unroll_for 0 2 (fun dso => unroll_for 0 2 (fun dsi =>
    assign_complex_prod_i s@[dso + 2 * rso]@[dsi + 2 * rsi];; assign_complex_prod_minus_i s@[dso + 2 * (1 - rso)]@[dsi + 2 * (1 - rsi)]))).
  { destruct rsi as [|[|?]]; [| |lia]; destruct rso as [|[|?]]; [| |lia| | |lia]; reflexivity. }
  rewrite B. clear B. destruct (blocks s rso rsi (1 - rso) (1 - rsi) m Ho Hi eq_refl eq_refl) as [A B]. split; [|intros q Hq _; apply B; exact Hq].
  intros i j Hi' Hj'. unfold ss at 1. rewrite A by assumption. clear A B.
  assert (D : forall r k l, (r < 2)%nat -> (k < 4)%nat -> (l < 4)%nat -> den (twist r) k l = if Nat.eqb k l then (rad2, if Nat.eqb (k / 2) r then rad2 else (- rad2)%R) else RtoC 0).
  { clear. intros r k l Hr Hk Hl. destruct r as [|[|?]]; [| |lia]; revert k Hk; refine (lt4 _ _ _ _ _); revert l Hl; refine (lt4 _ _ _ _ _); reflexivity. }
  transitivity (den (twist rso) i i * (ss m s i j * den (twist rsi) j j)).
  2:{ unfold dmul at 1.
      rewrite <- (csum4_pick i (fun k => den (twist rso) i i * (ss m s k j * den (twist rsi) j j))) by exact Hi'.
      apply csum_ext. intros k Hk. rewrite (Nat.eqb_sym i k). destruct (Nat.eqb_spec k i) as [->|K].
      - f_equal. unfold dmul. rewrite <- (csum4_pick j (fun l => ss m s i l * den (twist rsi) j j)) by exact Hj'. apply csum_ext. intros l Hl.
        destruct (Nat.eqb_spec j l) as [->|L]; [reflexivity|]. rewrite (D rsi l j) by assumption. destruct (Nat.eqb_spec l j); [congruence|]. ring.
      - rewrite (D rso i k) by assumption. destruct (Nat.eqb_spec i k); [congruence|]. ring. }
  rewrite !D by assumption. rewrite !Nat.eqb_refl. unfold blk, ss. generalize (m s@[i]@[j]). clear - RQ Hi Ho Hi' Hj'. intros c.
  assert (Q1 : (i / 2 = 0 \/ i / 2 = 1)%nat) by (do 4 (destruct i as [|i]; [cbn; lia|]); lia).
  assert (Q2 : (j / 2 = 0 \/ j / 2 = 1)%nat) by (do 4 (destruct j as [|j]; [cbn; lia|]); lia).
  destruct Q1 as [-> | ->], Q2 as [-> | ->]; destruct rsi as [|[|?]]; try lia; destruct rso as [|[|?]]; try lia; cbn [Nat.eqb andb Nat.sub];
    destruct c as [x y]; apply injective_projections; cbn;
    match goal with |- ?l = ?r => let l' := fresh in
      assert (l' : r = (2 * (rad2 * rad2) * l)%R) by ring; rewrite l', RQ; field end.
Qed.
