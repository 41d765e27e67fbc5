(** Common mathematical helpers (no model of the code here). *)
From Coq Require Export List ZArith Lia Bool Arith.
From Coq Require Export ZifyBool ZifyNat FinFun.
Export ListNotations.
Open Scope Z_scope.

(** [0,1,...,n-1] as integers *)
Definition seqZ (n : Z) : list Z := map Z.of_nat (seq 0 (Z.to_nat n)).

Lemma in_seqZ n i : In i (seqZ n) <-> 0 <= i < n.
Proof.
  unfold seqZ. rewrite in_map_iff. split.
  - intros [k [<- Hk]]. apply in_seq in Hk. lia.
  - intros H. exists (Z.to_nat i). split; [lia|]. apply in_seq. lia.
Qed.

Lemma NoDup_seqZ n : NoDup (seqZ n).
Proof.
  unfold seqZ. apply Injective_map_NoDup; [|apply seq_NoDup].
  intros a b H. lia.
Qed.

Lemma seqZ_length n : length (seqZ n) = Z.to_nat n.
Proof. unfold seqZ. now rewrite map_length, seq_length. Qed.

(** product of a list, right to left *)
Definition prodZ (s : list Z) : Z := fold_right Z.mul 1 s.
Definition sumZ (s : list Z) : Z := fold_right Z.add 0 s.

Lemma prodZ_cons n s : prodZ (n :: s) = n * prodZ s. Proof. reflexivity. Qed.

Lemma prodZ_app a b : prodZ (a ++ b) = prodZ a * prodZ b.
Proof.
  induction a as [|x a IH]; [cbn [app]; unfold prodZ at 2; cbn [fold_right]; ring|].
  cbn [app]. rewrite !prodZ_cons, IH. ring.
Qed.

Lemma prodZ_pos s : Forall (fun n => 0 < n) s -> 0 < prodZ s.
Proof.
  induction 1 as [|n s Hn Hs IH]; [reflexivity|]. rewrite prodZ_cons. nia.
Qed.

(** the i-th component, 0 when outside: the code only reads components below NDIM *)
Notation "x .[ m ]" := (nth m x 0%Z) (at level 2, left associativity, format "x .[ m ]").

(** assignment of one component *)
Fixpoint upd (x : list Z) (m : nat) (v : Z) : list Z :=
  match x, m with
  | [], _ => []
  | _ :: t, O => v :: t
  | h :: t, S m' => h :: upd t m' v
  end.

Lemma upd_length x m v : length (upd x m v) = length x.
Proof. revert m; induction x as [|h t IH]; intros [|m]; cbn; auto. Qed.

Lemma nth_upd_eq x m v : (m < length x)%nat -> (upd x m v).[m] = v.
Proof.
  revert m; induction x as [|h t IH]; intros [|m]; cbn; try lia; auto.
  intros H; apply IH; lia.
Qed.

Lemma nth_upd_neq x m k v : m <> k -> (upd x m v).[k] = x.[k].
Proof.
  revert m k; induction x as [|h t IH]; intros [|m] [|k]; cbn; try lia; auto.
Qed.

Fixpoint map2 (f : Z -> Z -> Z) (a b : list Z) : list Z :=
  match a, b with
  | x :: a', y :: b' => f x y :: map2 f a' b'
  | _, _ => []
  end.

Lemma map2_length f a b : length a = length b -> length (map2 f a b) = length a.
Proof. revert b; induction a as [|x a IH]; intros [|y b]; cbn; auto. Qed.

(** x is a site of the box with sides s *)
Definition in_box (x s : list Z) : Prop := Forall2 (fun c n => 0 <= c < n) x s.

Fixpoint in_boxb (x s : list Z) : bool :=
  match x, s with
  | [], [] => true
  | c :: x', n :: s' => (0 <=? c) && (c <? n) && in_boxb x' s'
  | _, _ => false
  end.

Lemma in_boxb_spec x s : in_boxb x s = true <-> in_box x s.
Proof.
  revert s; induction x as [|c x IH]; intros [|n s]; cbn; split; intros H;
    try discriminate; try constructor; try now inversion H.
  - apply andb_prop in H as [H1 H2]. lia.
  - apply andb_prop in H as [H1 H2]. now apply IH.
  - inversion H as [|? ? ? ? Hc Hr]; subst. apply IH in Hr. rewrite Hr. lia.
Qed.

(** tables written by loops: a cell is None until written *)
Definition table (A : Type) := Z -> option A.
Definition tempty {A} : table A := fun _ => None.
Definition tset {A} (t : table A) (k : Z) (v : A) : table A :=
  fun j => if j =? k then Some v else t j.

Lemma tset_eq {A} (t : table A) k v : tset t k v k = Some v.
Proof. unfold tset. now rewrite Z.eqb_refl. Qed.
Lemma tset_neq {A} (t : table A) k v j : j <> k -> tset t k v j = t j.
Proof. unfold tset. destruct (Z.eqb_spec j k); congruence. Qed.

(** 32 bit two's complement conversion and range *)
Definition int_min : Z := -2147483648.
Definition int_max : Z := 2147483647.
Definition in_int (z : Z) : bool := (int_min <=? z) && (z <=? int_max).
Definition wrap32 (z : Z) : Z := (z - int_min) mod 4294967296 + int_min.

Lemma wrap32_id z : in_int z = true -> wrap32 z = z.
Proof.
  unfold in_int, wrap32, int_min, int_max. intros H.
  rewrite Z.mod_small; lia.
Qed.
