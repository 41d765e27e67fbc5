(** Property theorems C78: the twisted mass Wilson operator and its even-odd blocks, exact real arithmetic. *)
From Coq Require Import Reals Lra Lia List Arith.
From Coquelicot Require Import Complex.
From Verif Require Import MatSpec MatAlg DiracModel DiracSpec DiracProofs TmModel TmSpec TmProofs TmAlg2 TmEo.
From Verif Require StagSpec TmGeo StagGeo GeometryModel EoModel Prop_Dirac.
Import ListNotations.
Open Scope C_scope.

(** C78: apply_tmQ writes gamma5 D psi on the sites of the output, in every order of the loop, and nothing else *)
Theorem C78_apply : forall n sched nup ndw out conf kappa anis mass inp, (forall l, StagSpec.order n (sched l)) -> out <> inp ->
  sets_obj n (apply_tmQ sched nup ndw out conf kappa anis mass inp) out (fun m => tmQ nup ndw conf kappa anis mass (m inp)).
Proof. intros. apply tmQ_ok; assumption. Qed.
Print Assumptions C78_apply.
(** the gamma matrices in D are hermitian and anticommute, with square one; gamma5 is the product of the four *)
Theorem C78_gamma :
  (forall mu nu, (mu < 4)%nat -> (nu < 4)%nat -> deq (dadd (dmul (gam mu) (gam nu)) (dmul (gam nu) (gam mu))) (dscale (RtoC (if Nat.eqb mu nu then 2 else 0)) did)) /\
  (forall mu, (mu < 4)%nat -> deq (ddag (gam mu)) (gam mu) /\ deq (dadd (dmul (gam mu) gam5) (dmul gam5 (gam mu))) (dscale (RtoC 0) did)) /\
  deq gam5 (dmul (gam 0) (dmul (gam 1) (dmul (gam 2) (gam 3)))).
Proof.
  destruct (Prop_Dirac.C72_base zero_matr) as (_ & _ & H & C & P & _).
  assert (B : forall mu, (mu < 4)%nat -> (1 <= iGammaOfMu mu <= 4)%nat) by (intros [|[|[|[|mu]]]]; cbn; lia).
  split; [|split; [|exact P]].
  - intros mu nu Hm Hn. unfold gam.
    replace (Nat.eqb mu nu) with (Nat.eqb (iGammaOfMu mu) (iGammaOfMu nu)) by (destruct mu as [|[|[|[|mu]]]], nu as [|[|[|[|nu]]]]; try lia; reflexivity).
    apply C; specialize (B mu Hm) as B1; specialize (B nu Hn) as B2; lia.
  - intros mu Hm. specialize (B mu Hm). split; [apply H; lia|].
    pose proof (C (iGammaOfMu mu) 5%nat ltac:(lia) ltac:(lia)) as E. replace (Nat.eqb (iGammaOfMu mu) 5) with false in E by (symmetry; apply Nat.eqb_neq; lia). exact E.
Qed.
Print Assumptions C78_gamma.
(** for any links Q(mu)^dag=Q(-mu), Q(mu)=Q(0)+i mu and |Q(mu)psi|^2=|Q(0)psi|^2+mu^2|psi|^2 *)
Theorem C78_hermiticity : forall n nup ndw U kappa anis mu f g, lattice_lx n nup ndw ->
  sdot n f (tmQ nup ndw U kappa anis mu g) = sdot n (tmQ nup ndw U kappa anis (- mu) f) g /\
  tmQ nup ndw U kappa anis mu f =[n]= sadd (tmQ nup ndw U kappa anis 0 f) (sscale (Ci * mu) f) /\
  norm2 n (tmQ nup ndw U kappa anis mu f) = (norm2 n (tmQ nup ndw U kappa anis 0 f) + mu * mu * norm2 n f)%R /\
  (mu * mu * norm2 n f <= norm2 n (tmQ nup ndw U kappa anis mu f))%R.
Proof.
  intros n nup ndw U kappa anis mu f g L. pose proof (Q_norm n nup ndw L U kappa anis mu f) as N.
  split; [apply Q_adj; exact L|]. split; [apply Q_mu|]. split; [exact N|]. rewrite N.
  pose proof (sdot_pos n (tmQ nup ndw U kappa anis 0 f)) as [_ P]. unfold norm2 at 2. unfold norm2 in *. lra.
Qed.
Print Assumptions C78_hermiticity.
(** so that the operator has no kernel when the twisted mass is not zero *)
Theorem C78_regular : forall n nup ndw U kappa anis mu f, lattice_lx n nup ndw -> mu <> 0%R ->
  tmD nup ndw U kappa anis mu f =[n]= (fun _ _ _ => RtoC 0) -> f =[n]= (fun _ _ _ => RtoC 0).
Proof.
  intros n nup ndw U kappa anis mu f L Hm H. apply (Q_inj n nup ndw L U kappa anis mu f Hm). unfold tmQ. intros x Hx s Hs c Hc.
  rewrite g5_at by exact Hs. rewrite (H x Hx s Hs c Hc). destruct Nat.ltb; ring.
Qed.
Print Assumptions C78_regular.
(** change of gauge *)
Theorem C78_gauge : forall n nup ndw U kappa anis mu g f, lattice_lx n nup ndw -> (forall x, (x < n)%nat -> unitary (g x)) ->
  tmQ nup ndw (gauged_lx nup g U) kappa anis mu (gauged_s g f) =[n]= gauged_s g (tmQ nup ndw U kappa anis mu f).
Proof. intros. apply Q_gauge; assumption. Qed.
Print Assumptions C78_gauge.

(** the routines on one parity: hopping from the other one, mass term and its inverse *)
Theorem C78_blocks : forall n sched l nup ndw p out conf kappa mu anis inp, (forall l, StagSpec.order n (sched l)) -> out <> inp ->
  sets_obj n (tmn2Deo_or_tmn2Doe_eos sched l nup ndw p out conf anis inp) out (fun m => hop_eo nup ndw conf anis p (m inp)) /\
  sets_obj n (tmDee_or_oo_eos sched l out kappa mu inp) out (fun m => diag kappa mu (m inp)) /\
  sets_obj n (inv_tmDee_or_oo_eos sched l out kappa mu inp) out (fun m => inv_diag kappa mu (m inp)).
Proof. intros. split; [apply hop_eo_ok; assumption|]. split; [apply Dee_ok; assumption|apply inv_ok; assumption]. Qed.
Print Assumptions C78_blocks.
Theorem C78_inverse : forall n kappa mu f, kappa <> 0%R ->
  diag kappa mu (inv_diag kappa mu f) =[n]= f /\ inv_diag kappa mu (diag kappa mu f) =[n]= f.
Proof. intros n kappa mu f Hk. split; intros x Hx s Hs c Hc; [apply inv_diag_diag|apply diag_inv_diag]; assumption. Qed.
Print Assumptions C78_inverse.
(** the preconditioned kernel and its square, with the temporaries they use *)
Theorem C78_kernel : forall n sched nup ndw conf kappa anis l out temp1 temp2 mu inp m, (forall l, StagSpec.order n (sched l)) -> StagSpec.lattice n nup ndw ->
  NoDup [out; temp1; temp2; inp] ->
  (let m' := tmDkern_eoprec_eos sched nup ndw conf l out temp1 kappa anis mu inp m in
   m' out =[n]= Koo nup ndw conf kappa anis mu (m inp) /\ (forall a x, (a <> out /\ a <> temp1) \/ (n <= x)%nat -> m' a x = m a x)) /\
  (let m' := tmDkern_eoprec_square_eos sched nup ndw conf l out temp1 temp2 kappa anis mu inp m in
   m' out =[n]= Koo nup ndw conf kappa anis mu (Koo nup ndw conf kappa anis (- mu) (m inp)) /\
   (forall a x, (a <> out /\ a <> temp1 /\ a <> temp2) \/ (n <= x)%nat -> m' a x = m a x)).
Proof.
  intros n sched nup ndw conf kappa anis l out temp1 temp2 mu inp m Hs L ND. split; [|apply square_ok; assumption].
  repeat match goal with H : NoDup (_ :: _) |- _ => apply NoDup_cons_iff in H; destruct H end. cbn [In] in *. apply kern_ok; try assumption; intuition congruence.
Qed.
Print Assumptions C78_kernel.
(** the kernel is what D makes of a field with D psi=0 on the even sites; its adjoint has the opposite mass; it has no kernel *)
Theorem C78_schur : forall n nup ndw U kappa anis mu F f g, StagSpec.lattice n nup ndw -> kappa <> 0%R ->
  (tmD_eo nup ndw U kappa anis mu 0 F =[n]= (fun _ _ _ => RtoC 0) -> g5 (tmD_eo nup ndw U kappa anis mu 1 F) =[n]= Koo nup ndw U kappa anis mu (F 1%nat)) /\
  sdot n f (Koo nup ndw U kappa anis mu g) = sdot n (Koo nup ndw U kappa anis (- mu) f) g /\
  (mu <> 0%R -> Koo nup ndw U kappa anis mu f =[n]= (fun _ _ _ => RtoC 0) -> f =[n]= (fun _ _ _ => RtoC 0)).
Proof.
  intros n nup ndw U kappa anis mu F f g L Hk. split; [|split].
  - apply K_schur; assumption.
  - apply K_adj; assumption.
  - intros Hm. apply K_inj; assumption.
Qed.
Print Assumptions C78_schur.

(** the tables of the code are those of a lattice, in both numberings (on one rank: with more the neighbours are in the halo, C15) *)
Theorem C78_lattice : forall g, GeometryModel.valid_grid g = true -> EoModel.eo_grid_ok g = true -> GeometryModel.nRanksDir g = [1; 1; 1; 1]%Z ->
  lattice_lx (Z.to_nat (GeometryModel.locVol g)) (TmGeo.lx_table_of g true) (TmGeo.lx_table_of g false) /\
  eo_tables (Z.to_nat (EoModel.locVolh g)) (TmGeo.lx_table_of g true) (TmGeo.lx_table_of g false) (StagGeo.table_of g true) (StagGeo.table_of g false)
    (TmGeo.lx_parity g) (TmGeo.eo_of_lx g) (TmGeo.lx_of_eo g).
Proof. intros g V E H. split; [apply TmGeo.lx_table_lattice; assumption|apply TmGeo.tables_ok; assumption]. Qed.
Print Assumptions C78_lattice.
(** the hypotheses are met *)
Definition ex_tm_grid : GeometryModel.grid := GeometryModel.mkGrid [4; 2; 4; 2]%Z [1; 1; 1; 1]%Z.
Example C78_ex_lattice : lattice_lx 64 (TmGeo.lx_table_of ex_tm_grid true) (TmGeo.lx_table_of ex_tm_grid false) /\
  eo_tables 32 (TmGeo.lx_table_of ex_tm_grid true) (TmGeo.lx_table_of ex_tm_grid false) (StagGeo.table_of ex_tm_grid true) (StagGeo.table_of ex_tm_grid false)
    (TmGeo.lx_parity ex_tm_grid) (TmGeo.eo_of_lx ex_tm_grid) (TmGeo.lx_of_eo ex_tm_grid) /\
  StagSpec.order 64 (rev (seq 0 64)).
Proof.
  destruct (C78_lattice ex_tm_grid eq_refl eq_refl eq_refl) as [A B]. split; [exact A|]. split; [exact B|].
  split; [apply NoDup_rev, seq_NoDup|]. intros k. rewrite <- in_rev, in_seq. lia.
Qed.
(** a value: one site, links one, kappa=1, a spinor with the first component: D psi=(1/2-8/2) psi + i mu gamma5 psi, times gamma5 *)
Example C78_ex_value : forall sched, (forall l, StagSpec.order 1 (sched l)) -> forall m, m 1%nat = (fun _ s c => if (Nat.eqb s 0 && Nat.eqb c 0)%bool then RtoC 1 else RtoC 0) ->
  apply_tmQ sched (fun x _ => x) (fun x _ => x) 0 (fun _ _ i j => if Nat.eqb i j then RtoC 1 else RtoC 0) 1 None (1 / 5) 1 m 0%nat 0%nat 0%nat 0%nat = (- (7 / 2), 1 / 5)%R.
Proof.
  intros sched Hs m E. destruct (C78_apply 1 sched (fun x _ => x) (fun x _ => x) 0%nat (fun _ _ i j => if Nat.eqb i j then RtoC 1 else RtoC 0) 1%R None (1 / 5)%R 1%nat Hs ltac:(lia) m) as [A _].
  rewrite (A 0%nat ltac:(lia) 0%nat ltac:(lia) 0%nat ltac:(lia)), E. unfold tmQ. rewrite g5_at by lia. unfold tmD, sadd, sscale. rewrite diag_spec by lia.
  unfold hop_lx, hops. set (w := fun (_ s c : nat) => if (Nat.eqb s 0 && Nat.eqb c 0)%bool then RtoC 1 else RtoC 0).
  rewrite (csum_ext 4 _ (fun _ => RtoC 2)).
  - cbn [csum]. unfold w. cbn [Nat.ltb Nat.leb Nat.eqb andb]. apply injective_projections; unfold Cminus, Copp, Cplus, Cmult, RtoC, Ci; cbn [fst snd]; lra.
  - intros mu _. unfold factor. unfold spin. cbn [csum]. unfold mvec, dag, w, dsub, dadd, did. cbn [csum Nat.eqb andb]. rewrite !Cconj_R.
    generalize (gam mu). intros G. apply injective_projections; unfold Cminus, Copp, Cplus, Cmult, RtoC; cbn [fst snd]; ring.
Qed.
