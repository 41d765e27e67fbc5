(** The four links of a site: copy and change of order between nissa and ILDG. *)
From Coq Require Import Reals Lra Lia List.
From Coquelicot Require Import Complex.
From Verif Require Import CplxModel CplxSpec CplxProofs MatModel MatSpec MatProofs MatRun.
Open Scope nat_scope.
Set Bullet Behavior "Strict Subproofs".

Lemma quad_cell (a b : path) (mu nu i j k l : nat) : a@[mu]@[i]@[j] = b@[nu]@[k]@[l] -> a = b /\ mu = nu /\ i = k /\ j = l.
Proof. intros E. injection E. auto. Qed.
(** four copies, to different places which are not read *)
Lemma quad_copies (a b : path) (s : nat -> nat) m : a <> b -> (forall mu nu, mu < 4 -> nu < 4 -> s mu = s nu -> mu = nu) -> (forall mu, mu < 4 -> s mu < 4) ->
  let m' := unroll_for 0 NDIM (fun mu => su3_copy a@[s mu] b@[mu]) m in
  (forall mu, mu < 4 -> meq (mat m' a@[s mu]) (mat m b@[mu])) /\ forall p, ~ in_quad a p -> m' p = m p.
Proof.
  intros N I B. cbv zeta. unfold unroll_for, NDIM. cbn [Nat.sub seq fold_left].
  destruct (su3_copy_ok a@[s 0] b@[0] a 0 0 m) as [A0 F0]. set (m0 := su3_copy _ _ m) in *.
  destruct (su3_copy_ok a@[s 1] b@[1] a 0 0 m0) as [A1 F1]. set (m1 := su3_copy _ _ m0) in *.
  destruct (su3_copy_ok a@[s 2] b@[2] a 0 0 m1) as [A2 F2]. set (m2 := su3_copy _ _ m1) in *.
  destruct (su3_copy_ok a@[s 3] b@[3] a 0 0 m2) as [A3 F3]. set (m3 := su3_copy _ _ m2) in *.
  assert (Pb : forall mu nu i j, ~ in_mat a@[mu] b@[nu]@[i]@[j]) by (intros mu nu i j (k & l & _ & _ & E); apply quad_cell in E; destruct E as (E & _); congruence).
  assert (Pa : forall mu nu i j, mu < 4 -> nu < 4 -> mu <> nu -> ~ in_mat a@[s mu] a@[s nu]@[i]@[j]).
  { intros mu nu i j Hm Hn D (k & l & _ & _ & E). apply quad_cell in E. destruct E as (_ & E & _). apply D. symmetry. now apply I. }
  unfold mat in *. split.
  - intros mu Hmu i j Hi Hj. destruct mu as [|[|[|[|mu]]]]; [| | | |lia].
    + rewrite F3, F2, F1 by (try (apply Pa; lia); tauto). apply A0; assumption.
    + rewrite F3, F2 by (try (apply Pa; lia); tauto). rewrite (A1 i j Hi Hj). apply F0; [apply Pb|tauto].
    + rewrite F3 by (try (apply Pa; lia); tauto). rewrite (A2 i j Hi Hj). rewrite F1, F0 by (try apply Pb; tauto). reflexivity.
    + rewrite (A3 i j Hi Hj). rewrite F2, F1, F0 by (try apply Pb; tauto). reflexivity.
  - intros p Hp. assert (Q : forall mu, mu < 4 -> ~ in_mat a@[s mu] p) by (intros mu H C; apply Hp; exists (s mu); split; [now apply B|exact C]).
    rewrite F3, F2, F1, F0 by (try (apply Q; lia); tauto). reflexivity.
Qed.
Lemma quad_su3_copy_ok a b m : a <> b -> let m' := quad_su3_copy a b m in
  (forall mu, mu < 4 -> meq (mat m' a@[mu]) (mat m b@[mu])) /\ forall p, ~ in_quad a p -> m' p = m p.
Proof. intros N. apply (quad_copies a b (fun mu => mu)); auto. Qed.
Lemma reord_ok (s : nat -> nat) out inp buff m : buff <> inp -> buff <> out -> (forall mu nu, mu < 4 -> nu < 4 -> s mu = s nu -> mu = nu) -> (forall mu, mu < 4 -> s mu < 4) ->
  let m' := (quad_su3_copy buff inp;; unroll_for 0 NDIM (fun mu => su3_copy out@[s mu] buff@[mu])) m in
  (forall mu, mu < 4 -> meq (mat m' out@[s mu]) (mat m inp@[mu])) /\ forall p, ~ in_quad out p -> ~ in_quad buff p -> m' p = m p.
Proof.
  intros N1 N2 I B. cbv zeta. rewrite then_run. destruct (quad_su3_copy_ok buff inp m N1) as [A F]. set (m1 := quad_su3_copy buff inp m) in *.
  destruct (quad_copies out buff s m1 (not_eq_sym N2) I B) as [A' F']. set (m2 := unroll_for _ _ _ m1) in *. cbv zeta in *. split.
  - intros mu Hmu i j Hi Hj. rewrite (A' mu Hmu i j Hi Hj). now apply A.
  - intros p P1 P2. rewrite F', F by assumption. reflexivity.
Qed.
Lemma nissa_to_ildg_ok out inp buff m : buff <> inp -> buff <> out -> let m' := quad_su3_nissa_to_ildg_reord out inp buff m in
  (forall mu, mu < 4 -> meq (mat m' out@[(mu + 3) mod 4]) (mat m inp@[mu])) /\ forall p, ~ in_quad out p -> ~ in_quad buff p -> m' p = m p.
Proof.
  intros N1 N2. assert (E : forall mu, (mu + NDIM - 1) mod NDIM = (mu + 3) mod 4) by (intros mu; unfold NDIM; f_equal; lia).
  pose proof (reord_ok (fun mu => (mu + NDIM - 1) mod NDIM) out inp buff m N1 N2) as H. cbv beta in H. destruct H as [A F].
  - intros mu nu Hm Hn. rewrite !E. destruct mu as [|[|[|[|mu]]]], nu as [|[|[|[|nu]]]]; cbn; lia.
  - intros mu Hm. rewrite E. destruct mu as [|[|[|[|mu]]]]; cbn; lia.
  - split; [|exact F]. intros mu Hm. rewrite <- E. now apply A.
Qed.
Lemma ildg_to_nissa_ok out inp buff m : buff <> inp -> buff <> out -> let m' := quad_su3_ildg_to_nissa_reord out inp buff m in
  (forall mu, mu < 4 -> meq (mat m' out@[(mu + 1) mod 4]) (mat m inp@[mu])) /\ forall p, ~ in_quad out p -> ~ in_quad buff p -> m' p = m p.
Proof.
  intros N1 N2. apply (reord_ok (fun mu => (mu + 1) mod NDIM) out inp buff m N1 N2).
  - intros mu nu Hm Hn. destruct mu as [|[|[|[|mu]]]], nu as [|[|[|[|nu]]]]; cbn; lia.
  - intros mu Hm. destruct mu as [|[|[|[|mu]]]]; cbn; lia.
Qed.
(** one after the other, in place *)
Lemma reord_inverse a buff m : buff <> a ->
  (forall mu, mu < 4 -> meq (mat (quad_su3_ildg_to_nissa_reord a a buff (quad_su3_nissa_to_ildg_reord a a buff m)) a@[mu]) (mat m a@[mu])) /\
  (forall mu, mu < 4 -> meq (mat (quad_su3_nissa_to_ildg_reord a a buff (quad_su3_ildg_to_nissa_reord a a buff m)) a@[mu]) (mat m a@[mu])).
Proof.
  intros N. split; intros mu Hm i j Hi Hj.
  - destruct (nissa_to_ildg_ok a a buff m N N) as [A _]. set (m1 := quad_su3_nissa_to_ildg_reord a a buff m) in *. destruct (ildg_to_nissa_ok a a buff m1 N N) as [A' _].
    cbv zeta in *. assert (E : mu = (((mu + 3) mod 4) + 1) mod 4) by (destruct mu as [|[|[|[|mu]]]]; cbn; lia).
    rewrite E at 1. rewrite (A' ((mu + 3) mod 4) (Nat.mod_upper_bound _ 4 ltac:(lia)) i j Hi Hj). now apply A.
  - destruct (ildg_to_nissa_ok a a buff m N N) as [A _]. set (m1 := quad_su3_ildg_to_nissa_reord a a buff m) in *. destruct (nissa_to_ildg_ok a a buff m1 N N) as [A' _].
    cbv zeta in *. assert (E : mu = (((mu + 1) mod 4) + 3) mod 4) by (destruct mu as [|[|[|[|mu]]]]; cbn; lia).
    rewrite E at 1. rewrite (A' ((mu + 1) mod 4) (Nat.mod_upper_bound _ 4 ltac:(lia)) i j Hi Hj). now apply A.
Qed.
