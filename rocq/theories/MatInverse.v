From Coq Require Import Reals Lra Lia List FunctionalExtensionality.
From Coquelicot Require Import Complex.
From Verif Require Import CplxModel CplxSpec CplxProofs CplxStores MatModel MatSpec MatProofs MatRun MatProofs2 MatProofs3 MatProofs4.
Import ListNotations.
Open Scope C_scope.
Set Bullet Behavior "Strict Subproofs".

Lemma unsafe_su3_explicit_inverse_ok inv u dt rc a m :
  inv <> u -> a <> dt -> a <> rc -> dt <> rc ->
  ~ in_mat u a -> ~ in_mat u dt -> ~ in_mat u rc -> ~ in_mat inv a -> ~ in_mat inv dt -> ~ in_mat inv rc ->
  det (mat m u) <> 0%R ->
  let m' := unsafe_su3_explicit_inverse inv u dt rc a m in
  meq (mat m' inv) (mscale (/ det (mat m u)) (cofactors (mat m u))) /\
  (forall p, ~ in_mat inv p -> p <> a -> p <> dt -> p <> rc -> m' p = m p).
Proof.
  intros H1 H2 H3 H4 A1 A2 A3 B1 B2 B3 D m'. subst m'. unfold unsafe_su3_explicit_inverse. rewrite 2 then_run.
  destruct (su3_det_ok dt u a H2 A2 A1 m) as [E1 E2]. set (m1 := su3_det dt u a m) in *. rewrite complex_reciprocal_st, E1, reciprocal_ok by exact D.
  set (m2 := upd m1 rc (/ det (mat m u))).
  assert (R : m2 rc = / det (mat m u)) by apply upd_same.
  assert (U : forall i j, (i < 3)%nat -> (j < 3)%nat -> m2 u@[i]@[j] = m u@[i]@[j]).
  { intros i j Hi Hj. unfold m2. rewrite upd_other by neq. apply E2; [neq|]. intros E. apply A1. exists i, j. auto. }
  assert (O : forall p, p <> a -> p <> dt -> p <> rc -> m2 p = m p).
  { intros p Pa Pd Pr. unfold m2. rewrite upd_other by exact Pr. apply E2; [exact Pd|]. intros E. apply Pa. symmetry. exact E. }
  clearbody m2. set (dd := / det (mat m u)) in *. clearbody dd. clear E1 E2 m1. split.
  - entries. all: unfold mscale, cofactors, mat; rewrite <- ?U by lia; run; rewrite R; ring.
  - intros p N Pa Pd Pr. rewrite <- (O p Pa Pd Pr). clear O. frame0.
Qed.
