(** Projection on SU(3) by orthonormalisation of the rows. *)
From Coq Require Import Reals Lra Lia List FunctionalExtensionality.
From Coquelicot Require Import Complex.
From Verif Require Import CplxModel CplxSpec CplxProofs CplxStores MatModel MatSpec MatProofs MatRun MatProofs2 MatProofs3 MatProofs4 MatAlg.
Import ListNotations.
Open Scope C_scope.
Set Bullet Behavior "Strict Subproofs".

Definition vnorm2 (v : cvec) : R := fst (csum 3 (fun k => v k * Cconj (v k))).
Lemma vnorm2_C v : RtoC (vnorm2 v) = csum 3 (fun k => v k * Cconj (v k)).
Proof. unfold vnorm2. cbn [csum]. ceq. Qed.
Lemma vnorm2_eq v : vnorm2 v = (fst (v 0%nat) ^ 2 + snd (v 0%nat) ^ 2 + (fst (v 1%nat) ^ 2 + snd (v 1%nat) ^ 2) + (fst (v 2%nat) ^ 2 + snd (v 2%nat) ^ 2))%R.
Proof. unfold vnorm2. cbn. ring. Qed.
Lemma vnorm2_pos v : (exists k, (k < 3)%nat /\ v k <> RtoC 0) -> (0 < vnorm2 v)%R.
Proof.
  intros (k & Hk & N). rewrite vnorm2_eq.
  assert (P : forall z : C, z <> RtoC 0 -> (0 < fst z ^ 2 + snd z ^ 2)%R).
  { intros [u w] H. cbn [fst snd]. destruct (Req_dec u 0) as [->|Hu]; [|nra]. destruct (Req_dec w 0) as [->|Hw]; [|nra]. now elim H. }
  pose proof (pow2_ge_0 (fst (v 0%nat))). pose proof (pow2_ge_0 (snd (v 0%nat))). pose proof (pow2_ge_0 (fst (v 1%nat))).
  pose proof (pow2_ge_0 (snd (v 1%nat))). pose proof (pow2_ge_0 (fst (v 2%nat))). pose proof (pow2_ge_0 (snd (v 2%nat))).
  idx k; pose proof (P _ N); lra.
Qed.
(** Gram-Schmidt on the first two rows *)
Definition gs_f (x : cmat) : C := rdot x 1 0 * RtoC (1 / vnorm2 (x 0%nat)).
Definition gs_1 (x : cmat) : cvec := fun k => x 1%nat k - gs_f x * x 0%nat k.
Definition gs (x : cmat) : cmat := fun i k => match i with
  | 0%nat => RtoC (1 / sqrt (vnorm2 (x 0%nat))) * x 0%nat k
  | 1%nat => RtoC (1 / sqrt (vnorm2 (gs_1 x))) * gs_1 x k
  | _ => x i k end.

Lemma su3_unitarize_orthonormalizing_ok o i sp f :
  sp <> f -> ~ in_mat o sp -> ~ in_mat o f -> ~ in_mat i sp -> ~ in_mat i f ->
  sets_mat_loc (fun p => p = sp \/ p = f) (su3_unitarize_orthonormalizing o i sp f) o (fun m => third_row (gs (mat m i))).
Proof.
  intros Hs O1 O2 I1 I2 m. unfold su3_unitarize_orthonormalizing. cbv zeta.
  assert (N0 : color_norm2 m i@[0%nat] = vnorm2 (mat m i 0%nat)).
  { unfold color_norm2, acc_for, complex_norm2, re, im. rewrite vnorm2_eq. unfold mat. cbn [seq fold_left Nat.sub NCOL]. ring. }
  rewrite N0. set (n0 := vnorm2 (mat m i 0%nat)) in *.
  match goal with |- context [?st m] => lazymatch st with then_ _ _ => set (m1 := st m) end end.
  assert (A1 : forall k, (k < 3)%nat -> m1 o@[1%nat]@[k] = gs_1 (mat m i) k).
  { intros k Hk. unfold m1, gs_1, gs_f, rdot. fold n0. clear m1. unfold mat. cbn [csum].
    destruct (path_dec o i) as [->|D]; idx k. all: clear N0; clearbody n0.
    all: run.
    all: generalize (RtoC (1 / n0)); intros; ring. }
  assert (A0 : forall k, (k < 3)%nat -> m1 i@[0%nat]@[k] = m i@[0%nat]@[k]).
  { intros k Hk. clear A1. unfold m1; clear m1. clear N0; clearbody n0. destruct (path_dec o i) as [->|D]; idx k. all: frame0. }
  assert (AF : forall p, ~ in_mat o p -> p <> sp -> p <> f -> m1 p = m p).
  { intros p P1 P2 P3. clear A1 A0. unfold m1; clear m1. clear N0; clearbody n0. frame0. }
  clearbody m1.
  assert (N1 : (complex_norm2 m1 o@[1%nat]@[0%nat] + complex_norm2 m1 o@[1%nat]@[1%nat] + complex_norm2 m1 o@[1%nat]@[2%nat])%R = vnorm2 (gs_1 (mat m i))).
  { rewrite vnorm2_eq. unfold complex_norm2, re, im. rewrite !A1 by lia. ring. }
  rewrite N1. set (n1 := vnorm2 (gs_1 (mat m i))) in *. rewrite then_run.
  match goal with |- context [?st m1] => lazymatch type of (st m1) with mem => set (m2 := st m1) end end.
  assert (B : forall r k, (r < 2)%nat -> (k < 3)%nat -> m2 o@[r]@[k] = gs (mat m i) r k).
  { intros r k Hr Hk. destruct r as [|[|r]]; [| |exfalso; lia]; cbn [gs]; fold n0; fold n1.
    - change (mat m i 0%nat k) with (m i@[0%nat]@[k]). rewrite <- A0 by exact Hk. unfold m2. clear m2 AF N0 N1 A1 A0. clearbody n0 n1.
      destruct (path_dec o i) as [->|D]; idx k; run; generalize (1 / sqrt n0)%R; intros; ceq.
    - rewrite <- A1 by exact Hk. unfold m2. clear m2 AF N0 N1 A1 A0. clearbody n0 n1. idx k; run; generalize (1 / sqrt n1)%R; intros; ceq. }
  assert (BF : forall p, ~ in_mat o p -> m2 p = m1 p).
  { intros p P. clear - P. unfold m2. frame0. }
  clearbody m2. destruct (su3_build_third_row_ok o m2) as [T1 T2]. split.
  - intros r k Hr Hk. rewrite T1 by assumption. idx r; unfold third_row.
    3: idx k; unfold mat at 1 2 3 4; rewrite !B by lia; reflexivity.
    all: unfold mat at 1; apply B; lia.
  - intros p P1 P2. rewrite (T2 p P1 (fun F => F)), BF by exact P1. apply AF; [exact P1| |]; intros E; apply P2; auto.
Qed.
