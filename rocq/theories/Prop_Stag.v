(** Staggered Dirac operator. *)
From Coq Require Import Reals Lra Lia List ZArith.
From Coquelicot Require Import Complex.
From Verif Require Import CplxModel MatModel MatSpec EvolveModel StagModel StagSpec StagProofs StagProofs2 StagProofs3 StagAlg StagAlg2.
From Verif Require Base GeometryModel EoModel StagGeo.
Import ListNotations.
Open Scope C_scope.
Set Bullet Behavior "Strict Subproofs".

(** C74: what each routine writes, whatever the order in which the sites are visited *)
Theorem C74_hopping : forall sched nup ndw n out conf inp, (forall l, order n (sched l)) -> apart out conf -> apart out inp ->
  (forall l, sets_fld n (apply_st2Doe sched nup ndw l out conf inp) out (fun m => hop nup ndw (lks m conf) 1 (fld m inp))) /\
  sets_fld n (apply_stDoe sched nup ndw out conf inp) out (fun m x i => / 2 * hop nup ndw (lks m conf) 1 (fld m inp) x i) /\
  (forall l, sets_fld n (apply_stDeo_half sched nup ndw l out conf inp) out (fun m x i => / 4 * hop nup ndw (lks m conf) 0 (fld m inp) x i)).
Proof.
  intros sched nup ndw n out conf inp Hs A1 A2. split; [|split].
  - intros l. apply st2Doe_ok; assumption.
  - eapply sets_fld_ext; [apply stDoe_ok; assumption|]. intros m x _ i _. unfold fcomb. rewrite RtoC_inv by lra. ring.
  - intros l. eapply sets_fld_ext; [apply stDeo_half_ok; assumption|]. intros m x _ i _. unfold fcomb. rewrite RtoC_inv by lra. ring.
Qed.
Print Assumptions C74_hopping.

Theorem C74_operator : forall sched nup ndw n out conf inp mass, (forall l, order n (sched l)) -> apart out conf -> apart out inp ->
  sets_fld n (evn_apply_stD sched nup ndw out conf mass inp) out (fun m => stD nup ndw (lks m conf) 1 mass 0 (fun p => fld m inp@[p])) /\
  sets_fld n (odd_apply_stD sched nup ndw out conf mass inp) out (fun m => stD nup ndw (lks m conf) 1 mass 1 (fun p => fld m inp@[p])) /\
  sets_fld n (evn_apply_stD_dag sched nup ndw out conf mass inp) out (fun m => stD nup ndw (lks m conf) (-1) mass 0 (fun p => fld m inp@[p])) /\
  sets_fld n (odd_apply_stD_dag sched nup ndw out conf mass inp) out (fun m => stD nup ndw (lks m conf) (-1) mass 1 (fun p => fld m inp@[p])) /\
  forall m, let m' := apply_stD sched nup ndw out conf mass inp m in
    (forall p, (p < 2)%nat -> feq n (fld m' out@[p]) (stD nup ndw (lks m conf) 1 mass p (fun p => fld m inp@[p]))) /\
    (forall q, (forall p x, (p < 2)%nat -> (x < n)%nat -> ~ in_vec out@[p]@[x] q) -> m' q = m q).
Proof.
  intros sched nup ndw n out conf inp mass Hs A1 A2.
  split; [apply evn_ok; assumption|]. split; [apply odd_ok; assumption|]. split; [apply evn_ok; assumption|]. split; [apply odd_ok; assumption|].
  intros m m'. unfold m', apply_stD. rewrite MatProofs.then_run. unfold evn_apply_stD, odd_apply_stD.
  destruct (evn_ok sched nup ndw n Hs out@[EVN] conf mass inp 1 (apart_at_l _ _ _ A1) (apart_at_l _ _ _ A2) m) as [E1 E2].
  set (m1 := evn_apply_stD_with_sign _ _ _ _ _ _ _ _ m) in *.
  destruct (odd_ok sched nup ndw n Hs out@[ODD] conf mass inp 1 (apart_at_l _ _ _ A1) (apart_at_l _ _ _ A2) m1) as [O1 O2].
  set (m2 := odd_apply_stD_with_sign _ _ _ _ _ _ _ _ m1) in *. clearbody m1 m2.
  assert (X : forall p x mu, meq (lks m1 conf p x mu) (lks m conf p x mu)).
  { intros p x mu i j _ _. unfold lks, mat. apply E2; [|tauto]. intros y _ (k & _ & E). revert E. ap. }
  assert (Y : forall p x i, fld m1 inp@[p] x i = fld m inp@[p] x i).
  { intros p x i. unfold fld, vec. apply E2; [|tauto]. intros y _ (k & _ & E). revert E. ap. }
  split.
  - intros p Hp x Hx i Hi. destruct p as [|[|p]]; [| |lia].
    + rewrite <- (E1 x Hx i Hi). unfold fld, vec. apply O2; [|tauto]. intros y _ (k & _ & E). unfold at_ in E. injection E. discriminate.
    + etransitivity; [exact (O1 x Hx i Hi)|]. unfold stD, fcomb. rewrite Y. f_equal. f_equal. unfold hop. apply DiracProofs.csum_ext. intros mu _.
      f_equal; apply mvec_ext; try exact Hi; try apply dag_ext; try apply X; intros j _; apply Y.
  - intros q Hq. rewrite O2, E2; [reflexivity| | | |]; try tauto; intros x Hx; apply Hq; unfold EVN, ODD; auto.
Qed.
Print Assumptions C74_operator.

(** the squared operator on the even sites: refused when source and destination are the same object *)
Theorem C74_squared : forall sched nup ndw n conf o vu vd cu cd out temp mass2 inp m,
  (forall l, order n (sched l)) ->
  (forall p x mu, (p < 2)%nat -> (x < n)%nat -> (mu < 4)%nat -> (nup p x mu < n)%nat /\ (ndw p x mu < n)%nat) ->
  ForallOrdPairs apart [out; inp; temp; conf; o; vu; vd; cu; cd] ->
  exists m', apply_stD2ee_m2 sched nup ndw out conf temp mass2 inp o vu vd cu cd m = Some m' /\
    feq n (fld m' out) (stD2ee nup ndw (lks m conf) mass2 (fld m inp)) /\
    (forall q, (forall x, (x < n)%nat -> ~ in_vec out@[x] q) -> (forall x, (x < n)%nat -> ~ in_vec temp@[x] q) ->
       ~ (in_vec o q \/ in_vec vu q \/ in_vec vd q \/ in_mat cu q \/ in_mat cd q) -> m' q = m q).
Proof.
  intros sched nup ndw n conf o vu vd cu cd out temp mass2 inp m Hs HL HA.
  repeat match goal with H : ForallOrdPairs _ (_ :: _) |- _ => inversion H; clear H; subst end.
  repeat match goal with H : Forall _ (_ :: _) |- _ => inversion H; clear H; subst end.
  assert (S : forall a b, apart a b -> apart b a) by (intros; apply apart_sym; assumption).
  destruct (D2ee_ok sched nup ndw n Hs conf o vu vd cu cd) with (out := out) (temp := temp) (mass2 := mass2) (inp := inp) (m := m)
    as (m' & E & F1 & _ & F2); auto.
  - intros ->. match goal with H : apart inp inp |- _ => apply (H [] []); reflexivity end.
  - exists m'. auto.
Qed.
Print Assumptions C74_squared.
Theorem C74_squared_same : forall sched nup ndw conf o vu vd cu cd temp mass2 inp m,
  apply_stD2ee_m2 sched nup ndw inp conf temp mass2 inp o vu vd cu cd m = None.
Proof. intros. unfold apply_stD2ee_m2. destruct (path_dec inp inp); [reflexivity|congruence]. Qed.
Print Assumptions C74_squared_same.

(** D^dag is the adjoint of D, D^dag D does not mix even and odd sites and is the squared operator *)
Theorem C74_adjoint : forall n nup ndw U m f g, lattice n nup ndw ->
  dot2 n f (fun p => stD nup ndw U 1 m p g) = dot2 n (fun p => stD nup ndw U (-1) m p f) g /\
  feq n (stD nup ndw U (-1) m 0 (fun p => stD nup ndw U 1 m p f)) (stD2ee nup ndw U (m * m) (f 0%nat)).
Proof. intros. split; [apply D_adj; assumption|apply DdagD]. Qed.
Print Assumptions C74_adjoint.
(** the squared operator is hermitian and not smaller than the squared mass, for any links *)
Theorem C74_positive : forall n nup ndw U m2 f g, lattice n nup ndw ->
  sdot n f (stD2ee nup ndw U m2 g) = sdot n (stD2ee nup ndw U m2 f) g /\
  snd (sdot n f (stD2ee nup ndw U m2 f)) = 0%R /\ (m2 * fst (sdot n f f) <= fst (sdot n f (stD2ee nup ndw U m2 f)))%R.
Proof.
  intros n nup ndw U m2 f g L. rewrite D2_form_l, !D2_form by assumption. split; [reflexivity|].
  destruct (sdot_pos n f) as [F1 F2], (sdot_pos n (hop nup ndw U 1 f)) as [H1 H2].
  replace (/ RtoC 4) with (RtoC (/ 4)) by (rewrite RtoC_inv; [reflexivity|lra]).
  unfold Cplus, Cmult, RtoC. cbn [fst snd]. rewrite F1, H1. split; [ring|]. lra.
Qed.
Print Assumptions C74_positive.
(** change of gauge *)
Theorem C74_gauge : forall n nup ndw g U s m p f, lattice n nup ndw -> (p < 2)%nat ->
  (forall q x, (q < 2)%nat -> (x < n)%nat -> unitary (g q x)) ->
  feq n (stD nup ndw (gauged_links nup g U) s m p (fun q => gauged (g q) (f q))) (gauged (g p) (stD nup ndw U s m p f)).
Proof.
  intros n nup ndw g U s m p f L Hp Hg x Hx i Hi. unfold stD, fcomb.
  rewrite (hop_covariant n nup ndw L g U p (f (1 - p)%nat) Hp Hg x Hx i Hi). unfold gauged. symmetry. apply mvec_lin.
Qed.
Print Assumptions C74_gauge.

(** the tables of the code are those of a lattice (on one rank: with more ranks the neighbours are in the halo, C15) *)
Theorem C74_lattice : forall g, GeometryModel.valid_grid g = true -> EoModel.eo_grid_ok g = true -> GeometryModel.nRanksDir g = [1; 1; 1; 1]%Z ->
  lattice (Z.to_nat (EoModel.locVolh g)) (StagGeo.table_of g true) (StagGeo.table_of g false).
Proof. exact StagGeo.table_lattice. Qed.
Print Assumptions C74_lattice.
(** the hypotheses are met: objects of different names are apart, the reverse order of a lattice of one rank *)
Lemma apart_roots a b : a <> b -> apart [a] [b].
Proof. intros N l l' E. apply app_inj_tail in E. tauto. Qed.
Example C74_ex_apart : ForallOrdPairs apart [[0%nat]; [1%nat]; [2%nat]; [3%nat]; [4%nat]; [5%nat]; [6%nat]; [7%nat]; [8%nat]].
Proof. repeat constructor; apply apart_roots; discriminate. Qed.
Definition ex_stag_grid : GeometryModel.grid := GeometryModel.mkGrid [4; 2; 4; 2]%Z [1; 1; 1; 1]%Z.
Example C74_ex_lattice : lattice 32 (StagGeo.table_of ex_stag_grid true) (StagGeo.table_of ex_stag_grid false) /\ order 32 (rev (seq 0 32)).
Proof.
  split; [exact (C74_lattice ex_stag_grid eq_refl eq_refl eq_refl)|]. split; [apply NoDup_rev, seq_NoDup|].
  intros k. rewrite <- in_rev, in_seq. lia.
Qed.
Example C74_ex_table : map (fun mu => (StagGeo.table_of ex_stag_grid true 1 5 mu, StagGeo.table_of ex_stag_grid false 1 5 mu)) [0; 1; 2; 3]%nat
  = [(13, 29); (1, 1); (6, 4); (5, 5)]%nat.
Proof. vm_compute. reflexivity. Qed.
