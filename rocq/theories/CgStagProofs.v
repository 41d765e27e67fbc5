(** The solvers of the staggered operator *)
From Coq Require Import Reals Lra Lia List ZArith Arith FunctionalExtensionality.
From Coquelicot Require Import Complex.
From Verif Require Import CplxModel MatModel MatSpec MatProofs StagModel StagSpec StagProofs StagProofs2 StagProofs3 StagAlg StagAlg2 CgModel CgStagModel.
From Verif Require CgSpec CgAlg CgProofs CgmProofs CgmProofs2 Prop_Stag.
Import ListNotations.
Open Scope C_scope.
Set Bullet Behavior "Strict Subproofs".
Local Notation rveq := CgSpec.veq.

(** ** real numbers of a field *)
Lemma d6 x k : (k < 6)%nat -> ((6 * x + k) / 6 = x /\ (6 * x + k) mod 6 = k)%nat.
Proof. intros H. split; [symmetry; apply (Nat.div_unique _ 6 x k); lia|symmetry; apply (Nat.mod_unique _ 6 x k); lia]. Qed.
Lemma to_r_at f x k : (k < 6)%nat -> to_r f (6 * x + k)%nat = if Nat.even k then fst (f x (k / 2)%nat) else snd (f x (k / 2)%nat).
Proof. intros H. unfold to_r. destruct (d6 x k H) as [-> ->]. reflexivity. Qed.
Lemma of_to f x i : (i < 3)%nat -> of_r (to_r f) x i = f x i.
Proof.
  intros H. unfold of_r. rewrite <- Nat.add_assoc, !to_r_at by lia.
  destruct i as [|[|[|]]]; try lia; cbn; destruct (f x _); reflexivity.
Qed.
Lemma to_of v d : to_r (of_r v) d = v d.
Proof.
  pose proof (Nat.div_mod d 6 ltac:(lia)) as E. pose proof (Nat.mod_upper_bound d 6 ltac:(lia)) as B.
  rewrite E at 1. rewrite to_r_at by assumption. unfold of_r. cbn [fst snd].
  set (q := (d / 6)%nat) in *. clearbody q.
  destruct (d mod 6)%nat as [|[|[|[|[|[|]]]]]] eqn:Em; try lia; cbn [Nat.even]; f_equal; cbn [Nat.div Nat.divmod fst]; lia.
Qed.
Lemma to_r_ext n f g : feq n f g -> rveq (6 * n) (to_r f) (to_r g).
Proof.
  intros H d Hd. unfold to_r. rewrite (H (d / 6)%nat); [reflexivity|apply Nat.div_lt_upper_bound; lia|].
  pose proof (Nat.mod_upper_bound d 6 ltac:(lia)). apply Nat.div_lt_upper_bound; lia.
Qed.
Lemma of_r_ext n u v : rveq (6 * n) u v -> feq n (of_r u) (of_r v).
Proof. intros H x Hx i Hi. unfold of_r. rewrite !H by lia. reflexivity. Qed.
Lemma rsum6 n f : rsum (6 * S n) f = (rsum (6 * n) f + (f (6 * n)%nat + f (6 * n + 1)%nat + f (6 * n + 2)%nat + f (6 * n + 3)%nat + f (6 * n + 4)%nat + f (6 * n + 5)%nat))%R.
Proof.
  replace (6 * S n)%nat with (S (S (S (S (S (S (6 * n)))))))%nat by lia. cbn [rsum].
  replace (6 * n + 1)%nat with (S (6 * n)) by lia. replace (6 * n + 2)%nat with (S (S (6 * n))) by lia.
  replace (6 * n + 3)%nat with (S (S (S (6 * n)))) by lia. replace (6 * n + 4)%nat with (S (S (S (S (6 * n))))) by lia.
  replace (6 * n + 5)%nat with (S (S (S (S (S (6 * n)))))) by lia. ring.
Qed.
Lemma rdot_sdot n f g : rdot (6 * n) (to_r f) (to_r g) = fst (sdot n f g).
Proof.
  unfold rdot, sdot. induction n; [reflexivity|]. rewrite rsum6, IHn. cbn [csum]. unfold Cplus at 1. cbn [fst]. f_equal.
  replace (6 * n)%nat with (6 * n + 0)%nat at 1 2 by lia. rewrite !to_r_at by lia. cbn [Nat.even Nat.div Nat.divmod fst snd].
  unfold Cplus, Cmult, Cconj, RtoC. cbn [fst snd]. ring.
Qed.
Lemma to_r_comb a f b g d : to_r (fcomb a f b g) d = (a * to_r f d + b * to_r g d)%R.
Proof. unfold to_r, fcomb, Cplus, Cmult, RtoC. cbn [fst snd]. destruct Nat.even; ring. Qed.
Lemma of_r_comb a u b v x i : of_r (fun d => a * u d + b * v d)%R x i = fcomb a (of_r u) b (of_r v) x i.
Proof. unfold of_r, fcomb, Cplus, Cmult, RtoC. cbn [fst snd]. f_equal; ring. Qed.
Lemma get_put m a f : get_field (put_field m a f) a = f.
Proof.
  apply functional_extensionality; intros x; apply functional_extensionality; intros i. unfold get_field, put_field, at_.
  destruct (path_dec a a); [reflexivity|congruence].
Qed.
Lemma put_other m a f q : (forall x i, q <> a@[x]@[i]) -> put_field m a f q = m q.
Proof.
  intros H. unfold put_field. destruct q as [|i [|x a']]; try reflexivity. destruct (path_dec a' a) as [->|]; [|reflexivity].
  exfalso. apply (H x i). reflexivity.
Qed.

(** ** the operator *)
Section Op.
Variables (sched : nat -> list nat) (nup ndw : nat -> nat -> nat -> nat) (n : nat).
Hypothesis Hs : forall l, order n (sched l).
Hypothesis L : lattice n nup ndw.
Variables (vin vout temp o vu vd cu cd : path).
Variables (conf : path) (m : mem).
Hypothesis HA : ForallOrdPairs apart [vout; vin; temp; conf; o; vu; vd; cu; cd].
Notation U := (lks m conf).
Notation app := (applier sched nup ndw vin vout temp o vu vd cu cd conf m).
Lemma apart_vin_conf : apart vin conf.
Proof.
  inversion HA as [|? ? _ H0]; subst. inversion H0 as [|? ? H1 _]; subst. inversion H1 as [|? ? _ H2]; subst. inversion H2; subst. assumption.
Qed.
Lemma lks_put v : lks (put_field m vin v) conf = U.
Proof.
  pose proof apart_vin_conf as A. do 5 (apply functional_extensionality; intros ?). unfold lks, mat. apply put_other. intros y j.
  apply not_eq_sym. ap.
Qed.
Lemma applier_ok m2 v : rveq (6 * n) (app m2 v) (to_r (stD2ee nup ndw U m2 (of_r v))).
Proof.
  unfold applier. destruct (Prop_Stag.C74_squared sched nup ndw n conf o vu vd cu cd vout temp m2 vin (put_field m vin (of_r v)) Hs) as (m' & -> & E & _).
  - intros p x mu Hp Hx Hm. destruct (L p x mu Hp Hx Hm) as (? & ? & _). auto.
  - exact HA.
  - apply to_r_ext. intros x Hx i Hi. change (get_field m' vout x i) with (fld m' vout x i). rewrite (E x Hx i Hi), lks_put.
    change (fld (put_field m vin (of_r v)) vin) with (get_field (put_field m vin (of_r v)) vin). rewrite get_put. reflexivity.
Qed.
Lemma D2_feq m2 f g : feq n f g -> feq n (stD2ee nup ndw U m2 f) (stD2ee nup ndw U m2 g).
Proof.
  intros H x Hx i Hi. unfold stD2ee, fcomb. rewrite (H x Hx i Hi).
  rewrite (hop_feq n nup ndw L U 0 _ _ ltac:(lia) (hop_feq n nup ndw L U 1 _ _ ltac:(lia) H) x Hx i Hi). reflexivity.
Qed.
Lemma D2_comb m2 a f b g : feq n (stD2ee nup ndw U m2 (fcomb a f b g)) (fcomb a (stD2ee nup ndw U m2 f) b (stD2ee nup ndw U m2 g)).
Proof.
  intros x Hx i Hi. unfold stD2ee, fcomb at 1. 
  rewrite (hop_feq n nup ndw L U 0 _ (fcomb a (hop nup ndw U 1 f) b (hop nup ndw U 1 g)) ltac:(lia)); [|intros y Hy j Hj; apply hop_comb|assumption|assumption].
  rewrite hop_comb. unfold fcomb. ring.
Qed.
Lemma applier_linear m2 : CgSpec.linear_op (6 * n) (app m2).
Proof.
  split.
  - intros u v H d Hd. rewrite !(applier_ok m2 _ d Hd). apply (to_r_ext n); [|exact Hd]. apply D2_feq, of_r_ext, H.
  - intros a b u v d Hd. rewrite !(applier_ok m2 _ d Hd), <- to_r_comb. apply (to_r_ext n); [|exact Hd].
    intros x Hx i Hi. rewrite <- (D2_comb m2 a _ b _ x Hx i Hi). apply D2_feq; [|assumption|assumption]. intros y Hy j Hj. apply of_r_comb.
Qed.
Lemma to_of_v v : rveq (6 * n) v (to_r (of_r v)). Proof. intros d _. symmetry. apply to_of. Qed.
Lemma rdot_app u m2 v : rdot (6 * n) u (app m2 v) = fst (sdot n (of_r u) (stD2ee nup ndw U m2 (of_r v))).
Proof. rewrite (CgAlg.rdot_ext _ _ _ _ _ (to_of_v u) (applier_ok m2 v)). apply rdot_sdot. Qed.
Lemma applier_symmetric m2 : CgSpec.symmetric_op (6 * n) (app m2).
Proof.
  intros u v. rewrite rdot_app, CgAlg.rdot_sym, rdot_app. destruct (Prop_Stag.C74_positive n nup ndw U m2 (of_r v) (of_r u) L) as [-> _].
  rewrite sdot_sym. reflexivity.
Qed.
Lemma applier_positive m2 : (0 < m2)%R -> CgSpec.positive_op (6 * n) (app m2).
Proof.
  intros Hm u Hu. rewrite rdot_app. destruct (Prop_Stag.C74_positive n nup ndw U m2 (of_r u) (of_r u) L) as (_ & _ & H).
  rewrite <- rdot_sdot in H. rewrite <- (CgAlg.rdot_ext _ _ _ _ _ (to_of_v u) (to_of_v u)) in H.
  assert (0 < rdot (6 * n) u u)%R as P.
  { pose proof (CgAlg.rdot_pos (6 * n) u). destruct (Req_dec (rdot (6 * n) u u) 0) as [E|]; [|lra]. exfalso. apply Hu. apply CgAlg.rdot_zero. assumption. }
  nra.
Qed.
Lemma applier_shifted : CgSpec.shifted (6 * n) app.
Proof.
  intros s v d Hd. rewrite !(applier_ok _ v d Hd). rewrite <- (to_of v d). rewrite <- (Rmult_1_l (to_r (stD2ee nup ndw U 0 (of_r v)) d)).
  rewrite <- to_r_comb. unfold stD2ee. unfold to_r, fcomb, Cplus, Cmult, RtoC. cbn [fst snd]. destruct Nat.even; ring.
Qed.
(** the squared operator of the multishift solver, and the residual *)
Lemma residual_ok m2 (src : nat -> nat -> C) v : CgSpec.residual2 (6 * n) (app m2) (to_r src) v =
  (let e := fcomb 1 src (-1) (stD2ee nup ndw U m2 (of_r v)) in fst (sdot n e e)).
Proof.
  cbv zeta. rewrite <- rdot_sdot. unfold CgSpec.residual2, vnorm2. apply CgAlg.rdot_ext; intros d Hd; rewrite to_r_comb, (applier_ok m2 v d Hd); ring.
Qed.
End Op.
