(** Cooling, overrelaxation, projection by maximisation of the trace. *)
From Coq Require Import Reals Lra Lia List Bool FunctionalExtensionality.
From Coquelicot Require Import Complex.
From Verif Require Import CplxModel CplxSpec CplxProofs CplxStores MatModel MatSpec MatProofs MatRun MatProofs2 MatProofs3 MatProofs4 MatAlg MatUnit MatUnit2 MatAlgoModel MatSu2.
Import ListNotations.
Open Scope C_scope.
Set Bullet Behavior "Strict Subproofs".

Lemma su2_prodassign_ok q s a md row : su2_apart a md row ->
  sets_mat_loc (su2_loc md row) (su2_prodassign_su3 q s a md row) a (fun m => mmul (sub_embed q s) (mat m a)).
Proof.
  intros Ap m. destruct q as [[[A B] C] D]. unfold su2_prodassign_su3. rewrite !then_run.
  set (m8 := set_im md@[1%nat]@[1%nat] _ _).
  assert (V : m8 md@[0%nat]@[0%nat] = (A, D) /\ m8 md@[0%nat]@[1%nat] = (C, B) /\ m8 md@[1%nat]@[0%nat] = ((- C)%R, B) /\ m8 md@[1%nat]@[1%nat] = (A, (- D)%R)).
  { unfold m8. rewrite ?set_re_st, ?set_im_st. repeat split; rd; cbn [fst snd]; rd; reflexivity. }
  assert (F : forall p, (forall i j, p <> md@[i]@[j]) -> m8 p = m p).
  { intros p P. unfold m8. rewrite ?set_re_st, ?set_im_st. rewrite !upd_other by apply P. reflexivity. }
  clearbody m8. destruct V as (V1 & V2 & V3 & V4).
  destruct (su2_prodassign_mod_ok md s a row m8 Ap) as (R1 & R2 & R3). cbv zeta in R1, R2, R3. rewrite V1, V2 in R1. rewrite V3, V4 in R2.
  destruct Ap as (N1 & N2 & N3).
  assert (FA : forall i k, m8 a@[i]@[k] = m a@[i]@[k]) by (intros i k; apply F; intros i' j' E; unfold at_ in E; congruence).
  split.
  - intros i j Hi Hj. unfold mat at 1. unfold sub_embed, mmul, mat. cbn [csum].
    unfold su3_sub_gr_indices in *. destruct s as [|[|s]]; cbn [fst snd] in *; idx i.
    all: try (rewrite R1 by exact Hj); try (rewrite R2 by exact Hj);
      try (rewrite R3; [| intros i' E; unfold at_ in E; injection E; intros E1 E2; apply (N2 _ (eq_sym E1)) | intros k Hk; split; intros E; unfold at_ in E; congruence]).
    all: rewrite !FA; unfold su2_embed, mid; cbn [Nat.eqb]; ring.
  - intros p P1 P2. rewrite R3.
    + apply F. intros i j E. apply P2. left. exists i, j. exact E.
    + intros i E. apply P2. right. exists i. exact E.
    + intros k Hk. split; intros E; apply P1; eexists; exists k; (split; [|split; [exact Hk|exact E]]); unfold su3_sub_gr_indices; destruct s as [|[|s]]; cbn; lia.
Qed.

(** ** One subgroup step *)
Lemma part_ok m a s : exists N, (0 <= N)%R /\ qnorm (su2_part m a s) = 1%R /\
  let '(A, B, C, D) := su2_part m a s in let i := fst (su3_sub_gr_indices s) in let j := snd (su3_sub_gr_indices s) in
  (re m a@[i]@[i] + re m a@[j]@[j] = N * A /\ im m a@[i]@[j] + im m a@[j]@[i] = N * B /\
   re m a@[i]@[j] - re m a@[j]@[i] = N * C /\ im m a@[i]@[i] - im m a@[j]@[j] = N * D)%R.
Proof.
  unfold su2_part, su2_part_of_su3. destruct (su3_sub_gr_indices s) as [i j]. cbn [fst snd].
  set (A := (re m a@[i]@[i] + re m a@[j]@[j])%R). set (B := (im m a@[i]@[j] + im m a@[j]@[i])%R).
  set (C := (re m a@[i]@[j] - re m a@[j]@[i])%R). set (D := (im m a@[i]@[i] - im m a@[j]@[j])%R).
  clearbody A B C D. set (n2 := (A * A + B * B + C * C + D * D)%R).
  assert (P : (0 <= n2)%R) by (unfold n2; nra).
  pose proof (sqrt_pos n2) as S0. pose proof (sqrt_sqrt n2 P) as S1. destruct (Req_EM_T (Rabs (sqrt n2)) 0) as [Z|Z]; cbn [fst].
  - assert (sqrt n2 = 0%R) by (destruct (Req_dec (sqrt n2) 0) as [E|E]; [exact E|elim (Rabs_no_R0 _ E Z)]).
    assert (n2 = 0%R) by (rewrite <- S1; nra). unfold n2 in *. assert (A = 0%R) by nra. assert (B = 0%R) by nra. assert (C = 0%R) by nra. assert (D = 0%R) by nra.
    subst A B C D. exists 0%R. cbn. repeat split; lra.
  - exists (sqrt n2). assert (NZ : sqrt n2 <> 0%R) by (intros E; apply Z; rewrite E; apply Rabs_R0). split; [exact S0|]. split.
    + cbn [qnorm]. transitivity (n2 * (1 / sqrt n2) * (1 / sqrt n2))%R; [unfold n2; field; exact NZ|]. rewrite <- S1 at 1. field. exact NZ.
    + repeat split; field; exact NZ.
Qed.
Lemma qnorm_inv q : qnorm q = 1%R -> qnorm (su2_inv q) = 1%R.
Proof. destruct q as [[[A B] C] D]. cbn. intros H. rewrite <- H. ring. Qed.
Lemma qnorm_over q : qnorm q = 1%R -> qnorm (su2_get_overrelaxing q) = 1%R.
Proof. destruct q as [[[A B] C] D]. cbn. intros H. nra. Qed.
Lemma tr_embed q s x : let '(A, B, C, D) := q in let i := fst (su3_sub_gr_indices s) in let j := snd (su3_sub_gr_indices s) in
  (fst (trace (mmul (sub_embed q s) x)) = fst (trace x) - (fst (x i i) + fst (x j j)) + (A * (fst (x i i) + fst (x j j)) - B * (snd (x i j) + snd (x j i))
    - C * (fst (x i j) - fst (x j i)) - D * (snd (x i i) - snd (x j j))))%R.
Proof.
  destruct q as [[[A B] C] D]. unfold sub_embed, su3_sub_gr_indices. destruct s as [|[|s]]; cbn [fst snd].
  all: unfold trace, mmul, su2_embed, mid; cbn [csum Nat.eqb]; cbn; ring.
Qed.
Lemma tr_inv m a s : (fst (trace (mat m a)) <= fst (trace (mmul (sub_embed (su2_inv (su2_part m a s)) s) (mat m a))))%R.
Proof.
  destruct (part_ok m a s) as (N & N0 & Q & E). destruct (su2_part m a s) as [[[A B] C] D]. cbn [qnorm su2_inv] in *. cbv zeta in E.
  pose proof (tr_embed (A, (- B)%R, (- C)%R, (- D)%R) s (mat m a)) as T. cbv zeta beta iota in T. rewrite T. unfold mat, re, im in *.
  destruct E as (E1 & E2 & E3 & E4). rewrite E1, E2, E3, E4. clear T E1 E2 E3 E4.
  assert (A <= 1)%R by nra. nra.
Qed.
Lemma tr_over m a s : fst (trace (mmul (sub_embed (su2_get_overrelaxing (su2_part m a s)) s) (mat m a))) = fst (trace (mat m a)).
Proof.
  destruct (part_ok m a s) as (N & N0 & Q & E). destruct (su2_part m a s) as [[[A B] C] D]. cbn [qnorm su2_get_overrelaxing] in *. cbv zeta in E.
  match goal with |- context [sub_embed ?q s] => pose proof (tr_embed q s (mat m a)) as T end. cbv zeta beta iota in T. rewrite T. unfold mat, re, im in *.
  destruct E as (E1 & E2 & E3 & E4). rewrite E1, E2, E3, E4. clear T E1 E2 E3 E4.
  transitivity (fst (csum 3 (fun i => m a@[i]@[i])) + N * A * (2 * (A * A + B * B + C * C + D * D) - 2))%R; [unfold trace; ring|rewrite Q; unfold trace; ring].
Qed.
