From Coq Require Import Reals Lra Lia List Bool FunctionalExtensionality.
From Coquelicot Require Import Complex.
From Verif Require Import CplxModel CplxSpec CplxProofs CplxStores MatModel MatSpec MatProofs MatRun MatProofs2 MatProofs3 MatProofs4 MatAlg MatUnit MatUnit2 MatAlgoModel MatSu2 MatCool.
Import ListNotations.
Open Scope C_scope.
Set Bullet Behavior "Strict Subproofs".

Section Two.
Context (a b md row : path) (Hab : a <> b) (Ha : su2_apart a md row) (Hb : su2_apart b md row).
Definition outside (p : path) : Prop := ~ in_mat a p /\ ~ in_mat b p /\ ~ su2_loc md row p.
Lemma loc_not_in x i j : su2_apart x md row -> ~ su2_loc md row x@[i]@[j].
Proof.
  intros (N1 & N2 & N3) [(i' & j' & E)|(i' & E)]; unfold at_ in E.
  - congruence.
  - injection E. intros E1 _. exact (N2 _ (eq_sym E1)).
Qed.
Lemma not_in x y i j : x <> y -> ~ in_mat x y@[i]@[j].
Proof. intros N (i' & j' & _ & _ & E). unfold at_ in E. congruence. Qed.
Lemma pair_step q s m : let m' := (su2_prodassign_su3 q s a md row;; su2_prodassign_su3 q s b md row) m in
  meq (mat m' a) (mmul (sub_embed q s) (mat m a)) /\ meq (mat m' b) (mmul (sub_embed q s) (mat m b)) /\ forall p, outside p -> m' p = m p.
Proof.
  intros m'. subst m'. rewrite then_run. destruct (su2_prodassign_ok q s a md row Ha m) as [A1 A2]. set (m1 := su2_prodassign_su3 q s a md row m) in *.
  destruct (su2_prodassign_ok q s b md row Hb m1) as [B1 B2]. set (m2 := su2_prodassign_su3 q s b md row m1) in *.
  split; [|split].
  - intros i j Hi Hj. rewrite <- (A1 i j Hi Hj). apply B2; [apply not_in; congruence|apply loc_not_in, Ha].
  - assert (E : meq (mat m1 b) (mat m b)) by (intros i j Hi Hj; apply A2; [apply not_in; congruence|apply loc_not_in, Hb]).
    rewrite B1, E. reflexivity.
  - intros p (P1 & P2 & P3). rewrite B2 by assumption. now apply A2.
Qed.

(** what is kept by a sequence of such steps: the same special unitary matrix has multiplied both *)
Definition moved (m m' : mem) (h : cmat) : Prop :=
  special_unitary h /\ meq (mat m' a) (mmul h (mat m a)) /\ meq (mat m' b) (mmul h (mat m b)) /\ forall p, outside p -> m' p = m p.
Lemma moved_refl m : moved m m mid.
Proof. split; [apply su_1|]. rewrite !mmul_1_l. repeat split; reflexivity. Qed.
Lemma moved_trans m m1 m2 h k : moved m m1 h -> moved m1 m2 k -> moved m m2 (mmul k h).
Proof.
  intros (S1 & A1 & B1 & F1) (S2 & A2 & B2 & F2). split; [now apply su_mul|]. split; [|split].
  - rewrite A2, A1, mmul_assoc. reflexivity.
  - rewrite B2, B1, mmul_assoc. reflexivity.
  - intros p P. rewrite F2 by exact P. now apply F1.
Qed.
Lemma pair_moved q s m : qnorm q = 1%R -> moved m ((su2_prodassign_su3 q s a md row;; su2_prodassign_su3 q s b md row) m) (sub_embed q s).
Proof. intros Q. split; [now apply embed_su|]. apply pair_step. Qed.
End Two.

Section Cool.
Context (U prod md row : path) (Hab : U <> prod) (Ha : su2_apart U md row) (Hb : su2_apart prod md row).
Notation moved := (moved U prod md row).
Definition retr (m : mem) : R := fst (trace (mat m prod)).

(** the step of cooling *)
Definition cool_step (s : nat) (m : mem) : mem :=
  let q := su2_inv (su2_part m prod s) in (su2_prodassign_su3 q s U md row;; su2_prodassign_su3 q s prod md row) m.
Definition over_step (s : nat) (m : mem) : mem :=
  let q := su2_get_overrelaxing (su2_part m prod s) in (su2_prodassign_su3 q s U md row;; su2_prodassign_su3 q s prod md row) m.
Lemma cool_step_ok s m : (exists h, moved m (cool_step s m) h) /\ (retr m <= retr (cool_step s m))%R.
Proof.
  destruct (part_ok m prod s) as (N & N0 & Q & _). split.
  - eexists. apply (pair_moved U prod md row Hab Ha Hb). now apply qnorm_inv.
  - unfold retr at 2, cool_step. destruct (pair_step U prod md row Hab Ha Hb (su2_inv (su2_part m prod s)) s m) as (_ & E & _). rewrite E. apply tr_inv.
Qed.
Lemma over_step_ok s m : (exists h, moved m (over_step s m) h) /\ retr (over_step s m) = retr m.
Proof.
  destruct (part_ok m prod s) as (N & N0 & Q & _). split.
  - eexists. apply (pair_moved U prod md row Hab Ha Hb). now apply qnorm_over.
  - unfold retr at 1, over_step. destruct (pair_step U prod md row Hab Ha Hb (su2_get_overrelaxing (su2_part m prod s)) s m) as (_ & E & _). rewrite E. apply tr_over.
Qed.

(** the pass of the projection *)
Lemma mt_step_ok prec iter m rot cv oi : exists h m' rot' cv', mt_step prec iter U prod md row (m, rot, cv) oi = (m', rot', cv') /\
  moved m m' h /\ (retr m <= retr m')%R.
Proof.
  destruct oi as [o s]. unfold mt_step. destruct (Nat.eqb o 0).
  - destruct (cool_step_ok s m) as [[h Hm] Ht]. exists h. do 3 eexists. split; [reflexivity|]. split; [exact Hm|exact Ht].
  - destruct (over_step_ok s m) as [[h Hm] Ht]. exists h. do 3 eexists. split; [reflexivity|]. split; [exact Hm|]. unfold over_step in Ht. cbv zeta in Ht. rewrite Ht. lra.
Qed.
Lemma mt_fold_ok prec iter l : forall m rot cv, exists h m' rot' cv', fold_left (mt_step prec iter U prod md row) l (m, rot, cv) = (m', rot', cv') /\
  moved m m' h /\ (retr m <= retr m')%R.
Proof.
  induction l as [|oi l IH]; intros m rot cv.
  - exists mid. do 3 eexists. split; [reflexivity|]. split; [apply moved_refl|lra].
  - cbn [fold_left]. destruct (mt_step_ok prec iter m rot cv oi) as (h & m1 & r1 & c1 & E & M1 & T1). rewrite E.
    destruct (IH m1 r1 c1) as (k & m2 & r2 & c2 & E2 & M2 & T2). exists (mmul k h). do 3 eexists. split; [exact E2|]. split; [now apply (moved_trans _ _ _ _ _ m1)|lra].
Qed.
End Cool.

(** ** Distance from unitarity *)
Lemma scalar_prod_value_ok m b c : scalar_prod_value m b c = csum 3 (fun k => Cconj (m b@[k]) * m c@[k]).
Proof. unfold scalar_prod_value. cbn [seq fold_left Nat.sub NCOL csum]. ring. Qed.
Definition mnorm (x : cmat) : R := sqrt (norm2 x).
Lemma color_norm2_rdot m u i : RtoC (color_norm2 m u@[i]) = rdot (mat m u) i i.
Proof. rewrite color_norm2_ok. unfold rdot, mat. cbn [csum]. ring. Qed.
Lemma non_unitariness_ok m u : su3_get_non_unitariness m u = sqrt (norm2 (msub (mmul (mat m u) (dag (mat m u))) mid)).
Proof.
  unfold su3_get_non_unitariness. f_equal. cbn [seq fold_left NCOL]. unfold acc_for. cbn [seq fold_left NCOL Nat.sub Nat.add].
  rewrite !scalar_prod_value_ok.
  assert (D : forall i, color_norm2 m u@[i] = fst (rdot (mat m u) i i)) by (intros i; rewrite <- color_norm2_rdot; reflexivity).
  rewrite !D. unfold norm2, rdot, trace, mmul, dag, msub, mid, mat. cbn [csum Nat.eqb]. cbn. ring.
Qed.
Lemma unitary_0 m u : unitary (mat m u) -> su3_get_non_unitariness m u = 0%R.
Proof.
  intros H. rewrite non_unitariness_ok. unfold unitary in H. rewrite <- sqrt_0. f_equal. unfold norm2.
  assert (E : meq (msub (mmul (mat m u) (dag (mat m u))) mid) (fun _ _ => RtoC 0)) by (rewrite H; intros i j _ _; unfold msub; ring).
  rewrite E. unfold trace, mmul, dag. cbn. ring.
Qed.
