(** The remaining routines on colours and matrices. *)
From Coq Require Import Reals Lra Lia List FunctionalExtensionality.
From Coquelicot Require Import Complex.
From Verif Require Import CplxModel CplxSpec CplxProofs CplxStores MatModel MatSpec MatProofs MatRun MatProofs2 MatProofs3 MatProofs4 MatInverse MatAlg MatUnit MatUnit2
  MatAlgoModel MatSu2 MatCool MatCool2 MatCool3 MatEnds.
Import ListNotations.
Open Scope C_scope.
Set Bullet Behavior "Strict Subproofs".

Lemma color_put_to_zero_ok (a : path) : sets_vec (color_put_to_zero a) a (fun m i => RtoC 0).
Proof. unfold color_put_to_zero. go1. Qed.
Lemma color_isumm_ok (a b c : path) : a <> c -> sets_vec (color_isumm a b c) a (fun m i => vec m b i + Ci * vec m c i).
Proof. intros H. unfold color_isumm. apply vec_loop; [intros; vals; unfold complex_isumm; assert (N : a@[i] <> c@[i]) by neq; crunch | intros; vals; rd; try reflexivity]. Qed.
Lemma color_isubt_ok (a b c : path) : a <> c -> sets_vec (color_isubt a b c) a (fun m i => vec m b i - Ci * vec m c i).
Proof. intros H. unfold color_isubt. apply vec_loop; [intros; vals; unfold complex_isubt; assert (N : a@[i] <> c@[i]) by neq; crunch | intros; vals; rd; try reflexivity]. Qed.
Lemma color_summassign_ok (a b : path) : sets_vec (color_summassign a b) a (fun m i => vec m a i + vec m b i).
Proof. unfold color_summassign, color_summ. go1. Qed.
Lemma color_subtassign_ok (a b : path) : sets_vec (color_subtassign a b) a (fun m i => vec m a i - vec m b i).
Proof. unfold color_subtassign, color_subt. go1. Qed.
Lemma color_prod_idouble_ok (a b : path) (r : R) : sets_vec (color_prod_idouble a b r) a (fun m i => vec m b i * (Ci * r)).
Proof. unfold color_prod_idouble. go1. Qed.
Lemma safe_color_prod_complex_conj_ok (a b c : path) : ~ in_vec a c -> sets_vec (safe_color_prod_complex_conj a b c) a (fun m i => vec m b i * Cconj (m c)).
Proof. intros H. unfold safe_color_prod_complex_conj. go1. Qed.
Lemma unsafe_color_prod_complex_conj_ok (a b c : path) : a <> b -> ~ in_vec a c -> sets_vec (unsafe_color_prod_complex_conj a b c) a (fun m i => vec m b i * Cconj (m c)).
Proof. intros H H0. unfold unsafe_color_prod_complex_conj. go1. Qed.

Lemma safe_inverse_ends inv u t dt rc a m : t <> u -> a <> dt -> a <> rc -> dt <> rc ->
  ~ in_mat u a -> ~ in_mat u dt -> ~ in_mat u rc -> ~ in_mat t a -> ~ in_mat t dt -> ~ in_mat t rc ->
  det (mat m u) <> RtoC 0 ->
  let m' := safe_su3_explicit_inverse inv u t dt rc a m in
  meq (mmul (mat m' inv) (mat m u)) mid /\ meq (mmul (mat m u) (mat m' inv)) mid /\
  (forall p, ~ in_mat inv p -> ~ in_mat t p -> p <> a -> p <> dt -> p <> rc -> m' p = m p).
Proof.
  intros H1 H2 H3 H4 A1 A2 A3 B1 B2 B3 D m'. destruct (inverse_ends t u dt rc a m H1 H2 H3 H4 A1 A2 A3 B1 B2 B3 D) as (E & E' & F).
  subst m'. unfold safe_su3_explicit_inverse. rewrite then_run. set (m1 := unsafe_su3_explicit_inverse t u dt rc a m) in *. clearbody m1.
  destruct (su3_copy_ok inv t inv 0%R 0%R m1) as [C1 C2]. split; [|split].
  - rewrite C1. exact E.
  - rewrite C1. exact E'.
  - intros p P1 P2 Pa Pd Pr. rewrite C2 by tauto. now apply F.
Qed.

(** the slow iteration recomputes the product at each step *)
Lemma part_val m m' a b s : meq (mat m a) (mat m' b) -> su2_part m a s = su2_part m' b s.
Proof.
  intros E. unfold su2_part, su2_part_of_su3.
  assert (V : forall i j, (i < 3)%nat -> (j < 3)%nat -> re m a@[i]@[j] = re m' b@[i]@[j] /\ im m a@[i]@[j] = im m' b@[i]@[j]).
  { intros i j Hi Hj. unfold re, im. pose proof (E i j Hi Hj) as F. unfold mat in F. rewrite F. auto. }
  unfold su3_sub_gr_indices. destruct s as [|[|s]]; cbv beta iota;
    (repeat match goal with |- context [re m a@[?i]@[?j]] => rewrite (proj1 (V i j ltac:(lia) ltac:(lia))) end);
    (repeat match goal with |- context [im m a@[?i]@[?j]] => rewrite (proj2 (V i j ltac:(lia) ltac:(lia))) end); reflexivity.
Qed.
Section Slow.
Context (U M prod md row : path) (Hab : U <> prod) (HM : prod <> M) (HUM : U <> M) (Ha : su2_apart U md row) (Hb : su2_apart prod md row) (Hc : su2_apart M md row).
Definition slow_step (s : nat) (m : mem) : mem :=
  (unsafe_su3_prod_su3_dag prod U M NCOL;; (fun m => su2_prodassign_su3 (su2_inv (su2_part m prod s)) s U md row m)) m.
(** the same link, the same M, and the product of the fast one *)
Definition same (x y : cmat) (ms mf : mem) : Prop :=
  meq (mat ms U) (mat mf U) /\ meq (mat ms M) y /\ meq (mat mf prod) (mmul (mat mf U) (dag y)).
Lemma slow_step_same x y s ms mf : same x y ms mf -> same x y (slow_step s ms) (cool_step U prod md row s mf).
Proof.
  intros (E1 & E2 & E3). unfold slow_step. rewrite then_run.
  destruct (start_prod U M prod ms (not_eq_sym Hab) HM) as (EU & EP & F). set (m1 := unsafe_su3_prod_su3_dag prod U M NCOL ms) in *. clearbody m1.
  assert (EM : meq (mat m1 M) y) by (rewrite <- E2; intros i j Hi Hj; apply F, not_in; exact HM).
  assert (P : su2_part m1 prod s = su2_part mf prod s) by (apply part_val; rewrite EP, E3, EU, E1, E2; reflexivity).
  rewrite P. destruct (su2_prodassign_ok (su2_inv (su2_part mf prod s)) s U md row Ha m1) as [A1 A2].
  destruct (pair_step U prod md row Hab Ha Hb (su2_inv (su2_part mf prod s)) s mf) as (B1 & B2 & _).
  fold (cool_step U prod md row s mf) in B1, B2. split; [|split].
  - rewrite A1, B1, EU, E1. reflexivity.
  - rewrite <- EM. intros i j Hi Hj. apply A2; [apply not_in; exact HUM|apply loc_not_in, Hc].
  - rewrite B2, B1, E3, mmul_assoc. reflexivity.
Qed.
Lemma slow_fast m : meq (mat (maximal_trace_iteration_slow U M prod md row m) U) (mat (maximal_trace_iteration U M prod md row m) U).
Proof.
  unfold maximal_trace_iteration_slow, maximal_trace_iteration. rewrite then_run.
  match goal with |- context [for_cols ?f m] => change f with slow_step end.
  destruct (start_prod U M prod m (not_eq_sym Hab) HM) as (EU & EP & F). set (m1 := unsafe_su3_prod_su3_dag prod U M NCOL m) in *. clearbody m1.
  match goal with |- context [for_cols ?f m1] => change f with (cool_step U prod md row) end. rewrite !for_cols_seq, !then_run.
  assert (S0 : same (mat m U) (mat m M) m m1) by (split; [symmetry; exact EU|]; split; [reflexivity|exact EP]).
  apply (slow_step_same _ _ 0%nat), (slow_step_same _ _ 1%nat), (slow_step_same _ _ 2%nat) in S0. apply S0.
Qed.
End Slow.
