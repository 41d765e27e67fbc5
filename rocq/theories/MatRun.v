(** Running straight-line code on matrices: the steps are read backwards from the cell of interest. *)
From Coq Require Import Reals Lra Lia List FunctionalExtensionality.
From Coquelicot Require Import Complex.
From Verif Require Import CplxModel CplxSpec CplxProofs CplxStores MatModel MatSpec MatProofs.
Import ListNotations.
Open Scope C_scope.
Set Bullet Behavior "Strict Subproofs".

Lemma for_cols_seq f : for_cols f = (f 0%nat;; f 1%nat;; f 2%nat). Proof. reflexivity. Qed.
Definition skip (m : mem) : mem := m.
Lemma unroll_00 f : unroll_for 0 0 f = skip. Proof. reflexivity. Qed.
Lemma unroll_01 f : unroll_for 0 1 f = f 0%nat. Proof. reflexivity. Qed.
Lemma unroll_02 f : unroll_for 0 2 f = (f 0%nat;; f 1%nat). Proof. reflexivity. Qed.
Lemma unroll_03 f : unroll_for 0 3 f = (f 0%nat;; f 1%nat;; f 2%nat). Proof. reflexivity. Qed.
Lemma unroll_13 f : unroll_for 1 3 f = (f 1%nat;; f 2%nat). Proof. reflexivity. Qed.
Lemma unroll_23 f : unroll_for 2 3 f = f 2%nat. Proof. reflexivity. Qed.
Lemma unroll_33 f : unroll_for 3 3 f = skip. Proof. reflexivity. Qed.
Lemma skip_l f : (skip;; f) = f. Proof. reflexivity. Qed.
Lemma skip_r f : (f;; skip) = f. Proof. reflexivity. Qed.
Lemma then_assoc f g h : ((f;; g);; h) = (f;; (g;; h)). Proof. reflexivity. Qed.

Lemma set_re_st a v m : set_re a v m = upd m a (v, snd (m a)). Proof. reflexivity. Qed.
Lemma set_im_st a v m : set_im a v m = upd m a (fst (m a), v). Proof. reflexivity. Qed.
Ltac flat := unfold NCOL; cbn [Nat.add]; repeat (progress (rewrite ?for_cols_seq, ?unroll_00, ?unroll_01, ?unroll_02, ?unroll_03, ?unroll_13, ?unroll_23,
  ?unroll_33; cbv beta; cbn [Nat.add])); repeat (progress (rewrite ?then_assoc, ?skip_l, ?skip_r)).
(** name the memory after each step *)
Ltac name_steps := repeat match goal with |- context [then_ ?f ?g ?m] => is_var m; rewrite (then_run f g m); let x := fresh "mm" in set (x := f m) end.
Ltac name_last := match goal with |- context [?f ?m] => is_var m; lazymatch type of m with mem => idtac end;
  lazymatch type of (f m) with mem => let x := fresh "mm" in set (x := f m) end end.
Ltac back := match goal with x := ?b : mem |- _ => unfold x; clear x; cbv beta; stores ltac:(idtac; neq); rewrite ?set_re_st, ?set_im_st; unfold re, im; rd;
  cbn [fst snd] end.
Ltac run := flat; name_steps; try name_last; repeat back; cbn [fst snd]; rd; cbn [fst snd].
Ltac idx i := destruct i as [|[|[|i]]]; [| | |exfalso; lia].
Ltac ceq := apply injective_projections; cbn; try field.
