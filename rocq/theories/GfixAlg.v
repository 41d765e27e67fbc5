(** The functional of the gauge fixing: gradient, stationary points, quality. *)
From Coq Require Import Reals Lra Permutation Morphisms.
From Coquelicot Require Import Coquelicot.
From Verif Require Import Base GeometryModel GeometrySpec GeometryProofs OwnerProofs GeoMiscModel HaloModel HaloProofs NeighProofs ReduceModel ReduceSpec ReduceMain StapleModel StapleSpec StapleProofs
  StapleMain Prop_Staple CplxModel CplxProofs MatModel MatSpec MatProofs MatProofs2 MatProofs3 MatProofs4 MatAlg IldgModel IldgProofs ChecksumSpec ChecksumMain GaugeModel GaugeSpec GaugeProofs GaugeAlg GaugeForce
  ExpModel ExpSpec ExpMain ExpSmall GfixModel GfixSpec GfixProofs.
From Verif Require ParModel ParSpec.
Set Bullet Behavior "Strict Subproofs".
Open Scope Z_scope.

(** ** traceless antihermitian part *)
Definition ta (x : cmat) : cmat := traceless_part (anti_herm_part x).
Lemma ta_proper x y : meq x y -> meq (ta x) (ta y).
Proof.
  intros H. assert (E : meq (anti_herm_part x) (anti_herm_part y)) by (intros i j Hi Hj; unfold anti_herm_part, mscale, msub, dag; now rewrite (H i j Hi Hj), (H j i Hj Hi)).
  intros i j Hi Hj. unfold ta, traceless_part, msub, mscale. now rewrite (E i j Hi Hj), (trace_proper _ _ E).
Qed.
Lemma ta_add x y : meq (ta (madd x y)) (madd (ta x) (ta y)).
Proof.
  intros i j Hi Hj. unfold ta, traceless_part, anti_herm_part, madd, msub, mscale, dag, trace. cbn [csum]. rewrite !Cconj_plus. ring.
Qed.
Lemma ta_sub x y : meq (ta (msub x y)) (msub (ta x) (ta y)).
Proof.
  intros i j Hi Hj. unfold ta, traceless_part, anti_herm_part, madd, msub, mscale, dag, trace. cbn [csum]. rewrite !Cconj_minus. ring.
Qed.
Lemma ta_dag x : meq (ta (dag x)) (msub (fun _ _ => RtoC 0) (ta x)).
Proof.
  intros i j Hi Hj. unfold ta, traceless_part, anti_herm_part, madd, msub, mscale, dag, trace. cbn [csum]. rewrite !Cconj_conj. ring.
Qed.
Lemma ta_0 : meq (ta (fun _ _ => RtoC 0)) (fun _ _ => RtoC 0).
Proof.
  intros i j Hi Hj. unfold ta, traceless_part, anti_herm_part, madd, msub, mscale, dag, trace. cbn [csum]. rewrite !Cconj_R. ring.
Qed.
Lemma norm2_opp x : norm2 (msub (fun _ _ => RtoC 0) x) = norm2 x.
Proof. unfold norm2, trace, mmul, msub, dag. cbn [csum]. f_equal. rewrite !Cconj_minus, !Cconj_R. ring. Qed.

Lemma fixed_loop s : fixed_dirs s = loop_mu s.
Proof. destruct s as [|[|[|[|s]]]]; reflexivity. Qed.
Lemma in_loop s mu : In mu (loop_mu s) -> (mu < 4)%nat.
Proof. unfold loop_mu. rewrite in_seq. lia. Qed.

(** ** gradient *)
Section Der.
Context (G : list Z) (HG : length G = 4%nat) (U : list Z -> nat -> cmat).
Definition dsum (s : nat) (x : list Z) : cmat :=
  fold_left (fun d mu => madd (madd d (U x mu)) (dag (U (back G x mu) mu))) (loop_mu s) (fun _ _ => RtoC 0).
Definition ddelta (s : nat) (x : list Z) : cmat :=
  fold_left (fun d mu => madd (msub d (U x mu)) (U (back G x mu) mu)) (loop_mu s) (fun _ _ => RtoC 0).
Lemma ta_delta s x : norm2 (ta (ddelta s x)) = norm2 (ta (dsum s x)).
Proof.
  assert (K : forall l a b, meq (ta a) (msub (fun _ _ => RtoC 0) (ta b)) ->
    meq (ta (fold_left (fun d mu => madd (msub d (U x mu)) (U (back G x mu) mu)) l a))
        (msub (fun _ _ => RtoC 0) (ta (fold_left (fun d mu => madd (madd d (U x mu)) (dag (U (back G x mu) mu))) l b)))).
  { induction l as [|mu l IH]; intros a b H; [exact H|]. cbn [fold_left]. apply IH. intros i j Hi Hj.
    rewrite (ta_add (msub a (U x mu)) (U (back G x mu) mu) i j Hi Hj). unfold madd at 1. rewrite (ta_sub a (U x mu) i j Hi Hj). unfold msub at 1. rewrite (H i j Hi Hj). unfold msub at 1 2.
    rewrite (ta_add (madd b (U x mu)) (dag (U (back G x mu) mu)) i j Hi Hj). unfold madd at 1. rewrite (ta_add b (U x mu) i j Hi Hj). unfold madd at 1. rewrite (ta_dag (U (back G x mu) mu) i j Hi Hj). unfold msub. ring. }
  rewrite <- (norm2_opp (ta (dsum s x))). apply norm2_proper. apply K. intros i j Hi Hj. rewrite (ta_0 i j Hi Hj). unfold msub. rewrite (ta_0 i j Hi Hj). ring.
Qed.
Lemma re_tr_dsum A s x : re_tr (mmul A (dsum s x)) = lsum (fun mu => re_tr (mmul A (U x mu)) + re_tr (mmul A (dag (U (back G x mu) mu))))%R (loop_mu s).
Proof.
  unfold dsum. assert (K : forall l a, re_tr (mmul A (fold_left (fun d mu => madd (madd d (U x mu)) (dag (U (back G x mu) mu))) l a)) =
    (re_tr (mmul A a) + lsum (fun mu => re_tr (mmul A (U x mu)) + re_tr (mmul A (dag (U (back G x mu) mu)))) l)%R).
  { induction l as [|mu l IH]; intros a; cbn [fold_left]; [rewrite lsum_nil; lra|]. rewrite IH, lsum_cons.
    assert (D : forall p q, meq (mmul A (madd p q)) (madd (mmul A p) (mmul A q))) by (intros p q i j _ _; unfold mmul, madd; cbn [csum]; ring).
    assert (P : forall p q, re_tr (mmul A (madd p q)) = (re_tr (mmul A p) + re_tr (mmul A q))%R) by (intros p q; rewrite <- re_tr_add; unfold re_tr; now rewrite (trace_proper _ _ (D p q))).
    rewrite !P. lra. }
  rewrite K. assert (Z0 : re_tr (mmul A (fun _ _ => RtoC 0)) = 0%R); [|rewrite Z0; lra].
  unfold re_tr, trace, mmul. cbn [csum]. unfold Cplus, Cmult, RtoC. cbn [fst snd]. ring.
Qed.
Lemma gradient_ok s : minus_gradient G U s (fun x => ta (dsum s x)).
Proof.
  split; [intros x _; apply ah_part|]. intros Om A HO HA. unfold functional. apply der_opp.
  eapply der_eq.
  { apply der_lsum with (d := fun x => lsum (fun mu => re_tr (mmul (A x) (U x mu)) + re_tr (mmul (A (step G x mu)) (dag (U x mu))))%R (fixed_dirs s)).
    intros x Hx. apply in_all_coords in Hx.
    apply (der_lsum (fun mu t => re_tr (transformed G (Om t) U x mu))). intros mu Hmu. rewrite fixed_loop in Hmu. apply in_loop in Hmu.
    assert (Hy : in_box (step G x mu) G) by (apply shift_in_box; [exact Hx|lia]).
    destruct (HO x Hx) as [I1 D1]. destruct (HO _ Hy) as [I2 D2].
    assert (Z0 : mat_derive (fun _ : R => U x mu) 0%R (fun _ _ => RtoC 0)) by (intros a b _ _; split; apply der_const).
    eapply der_eq; [apply mder_re_tr; unfold transformed; apply mder_mul; [apply mder_mul; [exact D1|exact Z0]|apply mder_dag; exact D2]|]. cbv beta.
    rewrite re_tr_add. f_equal.
    - unfold re_tr. f_equal. apply trace_proper. rewrite I2, dag_1, mmul_1_r. intros i j Hi Hj. unfold madd, mmul. cbn [csum]. ring.
    - rewrite <- re_tr_dag. unfold re_tr. f_equal. apply trace_proper. rewrite dag_mul, dag_dag, I1, mmul_1_l. reflexivity. }
  transitivity (lsum (fun x => re_tr (mmul (A x) (dsum s x))) (all_coords G)).
  - rewrite (lsum_ext (fun x => re_tr (mmul (A x) (dsum s x))) _ _ (fun x _ => re_tr_dsum (A x) s x)). rewrite fixed_loop.
    rewrite (lsum_swap _ (all_coords G)), (lsum_swap (fun x mu => (re_tr (mmul (A x) (U x mu)) + re_tr (mmul (A x) (dag (U (back G x mu) mu))))%R)).
    apply lsum_ext. intros mu Hmu. apply in_loop in Hmu. rewrite !lsum_plus. f_equal.
    rewrite <- (lsum_step G mu (fun x => re_tr (mmul (A x) (dag (U (back G x mu) mu))))) by lia.
    apply lsum_ext. intros x Hx. apply in_all_coords in Hx. rewrite back_step by (auto; lia). reflexivity.
  - apply lsum_ext. intros x Hx. apply in_all_coords in Hx. symmetry. apply re_tr_ah; now apply HA.
Qed.
End Der.

Lemma ah_square D : anti_hermitian D -> re_tr (mmul D D) = (- norm2 D)%R.
Proof.
  intros H. unfold norm2. fold (re_tr (mmul D (dag D))).
  assert (E : meq (mmul D (dag D)) (mscale (RtoC (-1)) (mmul D D))) by (red in H; rewrite H; apply mmul_scale_r).
  unfold re_tr at 2. rewrite (trace_proper _ _ E). fold (re_tr (mscale (RtoC (-1)) (mmul D D))). rewrite re_tr_scale. lra.
Qed.

(** ** stationary points *)
(** turning two colours (p,q) by an angle, with a phase z *)
Definition plane (p q : nat) (z : C) (s : R) : cmat := fun i j =>
  if Nat.eqb i p && Nat.eqb j p || Nat.eqb i q && Nat.eqb j q then RtoC (cos s)
  else if Nat.eqb i p && Nat.eqb j q then (RtoC (sin s) * z)%C
  else if Nat.eqb i q && Nat.eqb j p then (- (RtoC (sin s) * Cconj z))%C else mid i j.
Definition plane_gen (p q : nat) (z : C) : cmat := fun i j =>
  if Nat.eqb i p && Nat.eqb j q then z else if Nat.eqb i q && Nat.eqb j p then (- Cconj z)%C else RtoC 0.
(** opposite phases to two colours *)
Definition phases (p q : nat) (s : R) : cmat := fun i j =>
  if Nat.eqb i j then if Nat.eqb i p then (cos s, sin s) else if Nat.eqb i q then (cos s, (- sin s)%R) else RtoC 1 else RtoC 0.
Definition phases_gen (p q : nat) : cmat := fun i j => if Nat.eqb i j then if Nat.eqb i p then Ci else if Nat.eqb i q then (- Ci)%C else RtoC 0 else RtoC 0.
Ltac pairs H := destruct H as [[= <- <-]|[[= <- <-]|[[= <- <-]|[]]]].
Definition three : list (nat * nat) := [(0, 1); (0, 2); (1, 2)]%nat.
Ltac ij i j := destruct i as [|[|[|i]]]; [| | |exfalso; lia]; destruct j as [|[|[|j]]]; [| | |exfalso; lia|..]; try (exfalso; lia).
Lemma plane_unitary p q z s : In (p, q) three -> (fst z * fst z + snd z * snd z = 1)%R -> unitary (plane p q z s).
Proof.
  intros H Hz. pose proof (sin2_cos2 s) as E. unfold Rsqr in E. destruct z as [a b]. cbn [fst snd] in Hz.
  assert (E1 : (sin s * a * (sin s * a) + sin s * b * (sin s * b) = sin s * sin s)%R) by (transitivity (sin s * sin s * (a * a + b * b))%R; [ring|rewrite Hz; ring]).
  pairs H; intros i j Hi Hj; ij i j; unfold plane, mmul, dag, mid; cbn [csum Nat.eqb andb orb];
  unfold Cplus, Cmult, Copp, Cconj, RtoC; cbn [fst snd]; apply injective_projections; cbn [fst snd]; nra.
Qed.
Lemma plane_der p q z : In (p, q) three -> meq (plane p q z 0) mid /\ mat_derive (plane p q z) 0%R (plane_gen p q z).
Proof.
  intros H. split; [pairs H; intros i j Hi Hj; ij i j; unfold plane, mid; cbn [Nat.eqb andb orb]; rewrite ?sin_0, ?cos_0; try reflexivity; ring|].
  destruct z as [a b].
  pairs H; intros i j Hi Hj; ij i j; unfold plane, plane_gen, mid; cbn [Nat.eqb andb orb]; unfold Cmult, Copp, Cconj, RtoC; cbn [fst snd];
  (split; [auto_derive; [exact I|]|auto_derive; [exact I|]]; rewrite ?sin_0, ?cos_0; ring).
Qed.
Lemma plane_alg p q z : In (p, q) three -> anti_hermitian (plane_gen p q z) /\ trace (plane_gen p q z) = RtoC 0.
Proof.
  intros H. pairs H; (split; [intros i j Hi Hj; ij i j; unfold plane_gen, dag, mscale; cbn [Nat.eqb andb]; rewrite ?Cconj_R, m1; destruct z as [a b]; unfold Cmult, Copp, Cconj, RtoC; cbn [fst snd]; apply injective_projections; cbn [fst snd]; ring
   |unfold trace, plane_gen; cbn [csum Nat.eqb andb]; ring]).
Qed.
Lemma phases_unitary p q s : In (p, q) three -> unitary (phases p q s).
Proof.
  intros H. pose proof (sin2_cos2 s) as E. unfold Rsqr in E.
  pairs H; intros i j Hi Hj; ij i j; unfold phases, mmul, dag, mid; cbn [csum Nat.eqb]; unfold Cplus, Cmult, Cconj, RtoC; cbn [fst snd]; apply injective_projections; cbn [fst snd]; nra.
Qed.
Lemma phases_der p q : In (p, q) three -> meq (phases p q 0) mid /\ mat_derive (phases p q) 0%R (phases_gen p q).
Proof.
  intros H. split; [pairs H; intros i j Hi Hj; ij i j; unfold phases, mid; cbn [Nat.eqb]; rewrite ?sin_0, ?cos_0, ?Ropp_0; reflexivity|].
  pairs H; intros i j Hi Hj; ij i j; unfold phases, phases_gen, Ci, Copp, RtoC; cbn [Nat.eqb fst snd];
  (split; [auto_derive; [exact I|]|auto_derive; [exact I|]]; rewrite ?sin_0, ?cos_0; ring).
Qed.
Lemma phases_alg p q : In (p, q) three -> anti_hermitian (phases_gen p q) /\ trace (phases_gen p q) = RtoC 0.
Proof.
  intros H. pairs H; (split; [intros i j Hi Hj; ij i j; unfold phases_gen, dag, mscale; cbn [Nat.eqb]; rewrite ?Cconj_R, m1; unfold Ci, Cmult, Copp, Cconj, RtoC; cbn [fst snd]; apply injective_projections; cbn [fst snd]; ring
   |unfold trace, phases_gen; cbn [csum Nat.eqb]; ring]).
Qed.
(** a matrix of the algebra orthogonal to all the generators is zero *)
Lemma no_component D : anti_hermitian D -> trace D = RtoC 0 ->
  (forall p q z, In (p, q) three -> (fst z * fst z + snd z * snd z = 1)%R -> re_tr (mmul (plane_gen p q z) D) = 0%R) ->
  (forall p q, In (p, q) three -> re_tr (mmul (phases_gen p q) D) = 0%R) -> meq D (fun _ _ => RtoC 0).
Proof.
  intros Ha Ht H1 H2.
  assert (R1 : forall p q z, In (p, q) three -> re_tr (mmul (plane_gen p q z) D) = fst (z * D q p - Cconj z * D p q)%C).
  { intros p q z H. pairs H; unfold re_tr, trace, mmul, plane_gen; cbn [csum Nat.eqb andb]; f_equal; ring. }
  assert (R2 : forall p q, In (p, q) three -> re_tr (mmul (phases_gen p q) D) = fst (Ci * D p p - Ci * D q q)%C).
  { intros p q H. pairs H; unfold re_tr, trace, mmul, phases_gen; cbn [csum Nat.eqb]; f_equal; ring. }
  assert (O : forall p q, In (p, q) three -> D p q = RtoC 0 /\ D q p = RtoC 0).
  { intros p q H. assert (Hp : (p < 3)%nat) by (pairs H; lia). assert (Hq : (q < 3)%nat) by (pairs H; lia).
    pose proof (H1 p q (RtoC 1) H ltac:(cbn; lra)) as A. pose proof (H1 p q Ci H ltac:(cbn; lra)) as B. rewrite R1 in A, B by exact H.
    pose proof (Ha q p Hq Hp) as C. unfold dag, mscale in C. destruct (D p q) as [a b], (D q p) as [c d].
    unfold Cminus, Cplus, Cmult, Copp, Cconj, Ci, RtoC in *. cbn [fst snd] in *. injection C as C1 C2. split; f_equal; lra. }
  assert (O1 := O 0%nat 1%nat (or_introl eq_refl)). assert (O2 := O 0%nat 2%nat (or_intror (or_introl eq_refl))). assert (O3 := O 1%nat 2%nat (or_intror (or_intror (or_introl eq_refl)))).
  pose proof (H2 0%nat 1%nat (or_introl eq_refl)) as P1. pose proof (H2 0%nat 2%nat (or_intror (or_introl eq_refl))) as P2. rewrite R2 in P1, P2 by (cbn; tauto).
  pose proof (Ha 0%nat 0%nat ltac:(lia) ltac:(lia)) as A0. pose proof (Ha 1%nat 1%nat ltac:(lia) ltac:(lia)) as A1. pose proof (Ha 2%nat 2%nat ltac:(lia) ltac:(lia)) as A2.
  assert (Dg : D 0%nat 0%nat = RtoC 0 /\ D 1%nat 1%nat = RtoC 0 /\ D 2%nat 2%nat = RtoC 0).
  { unfold trace in Ht. cbn [csum] in Ht. unfold dag, mscale in *. destruct (D 0%nat 0%nat) as [a b], (D 1%nat 1%nat) as [c d], (D 2%nat 2%nat) as [e f].
    unfold Cminus, Cplus, Cmult, Copp, Cconj, Ci, RtoC in *. cbn [fst snd] in *. injection Ht as T1 T2. injection A0 as A01 A02. injection A1 as A11 A12. injection A2 as A21 A22.
    split; [|split]; f_equal; lra. }
  intros i j Hi Hj. ij i j; tauto.
Qed.
(** at one site only *)
Definition only (y : list Z) (m n : cmat) (x : list Z) : cmat := if list_eq_dec Z.eq_dec x y then m else n.
Lemma lsum_only (y : list Z) (f : list Z -> R) l : NoDup l -> In y l -> (forall x, x <> y -> f x = 0%R) -> lsum f l = f y.
Proof.
  intros N I H. induction l as [|a l IH]; [destruct I|]. inversion N as [|? ? Na N']; subst. rewrite lsum_cons. destruct I as [->|I].
  - assert (E : lsum f l = 0%R); [|lra]. clear -Na H. induction l as [|b l IH]; [reflexivity|]. rewrite lsum_cons, IH by (intros ?; apply Na; now right).
    rewrite H; [lra|]. intros ->. apply Na. now left.
  - rewrite IH by assumption. rewrite H; [lra|]. intros ->. contradiction.
Qed.
