(** Derivative, quality and functional as computed by the ranks; the step of the exponentiating method. *)
From Coq Require Import Reals Lra Permutation Morphisms.
From Coquelicot Require Import Coquelicot.
From Verif Require Import Base GeometryModel GeometrySpec GeometryProofs OwnerProofs GeoMiscModel HaloModel HaloProofs NeighProofs Geometry_final ReduceModel ReduceSpec ReduceMain StapleModel StapleSpec StapleProofs
  StapleMain Prop_Staple CplxModel CplxProofs MatModel MatSpec MatProofs MatRun MatProofs2 MatProofs3 MatProofs4 MatAlg IldgModel IldgProofs ChecksumSpec ChecksumMain GaugeModel GaugeSpec GaugeProofs GaugeAlg GaugeForce
  ExpModel ExpSpec ExpAlg ExpMain ExpSmall GfixModel GfixSpec GfixProofs GfixAlg.
From Verif Require ParModel ParSpec.
Set Bullet Behavior "Strict Subproofs".
Open Scope Z_scope.

(** ** stationary points *)
Lemma norm2_zero D : norm2 D = 0%R -> meq D (fun _ _ => RtoC 0).
Proof.
  intros H i j Hi Hj. pose proof (entry_norm D i j Hi Hj) as E. rewrite H in E. pose proof (sqn_pos (D i j)) as P. unfold sqn in *.
  destruct (D i j) as [a b]. cbn [fst snd] in *. assert (a = 0 /\ b = 0)%R as [-> ->] by (split; nra). reflexivity.
Qed.
Lemma lsum_nonneg {A} (f : A -> R) l : (forall x, In x l -> (0 <= f x)%R) -> (0 <= lsum f l)%R.
Proof. induction l as [|x l IH]; intros H; [rewrite lsum_nil; lra|]. rewrite lsum_cons. pose proof (H x (or_introl eq_refl)). pose proof (IH (fun y Hy => H y (or_intror Hy))). lra. Qed.
Lemma lsum_zero {A} (f : A -> R) l : (forall x, In x l -> (0 <= f x)%R) -> lsum f l = 0%R -> forall x, In x l -> f x = 0%R.
Proof.
  induction l as [|y l IH]; intros H E x Hx; [destruct Hx|]. rewrite lsum_cons in E. pose proof (H y (or_introl eq_refl)) as P. pose proof (lsum_nonneg f l (fun z Hz => H z (or_intror Hz))) as Q.
  destruct Hx as [->|Hx]; [lra|]. apply IH; auto; [intros; apply H; now right|lra].
Qed.
Section Stat.
Context (G : list Z) (HG : length G = 4%nat) (U : list Z -> nat -> cmat) (s : nat) (D : list Z -> cmat) (HD : minus_gradient G U s D).
Lemma stationary_iff : lsum (fun x => norm2 (D x)) (all_coords G) = 0%R <-> stationary G U s.
Proof.
  split.
  - intros E Om A HO HL HA. destruct HD as [_ K]. eapply der_eq; [apply (K Om A HL HA)|].
    assert (Z0 : lsum (fun x => re_tr (mmul (A x) (D x))) (all_coords G) = 0%R); [|rewrite Z0; lra].
    transitivity (lsum (fun _ : list Z => 0%R) (all_coords G)); [|rewrite lsum_const; lra]. apply lsum_ext. intros x Hx.
    pose proof (norm2_zero (D x) (lsum_zero _ _ (fun y _ => norm2_pos (D y)) E x Hx)) as ZD. unfold re_tr. rewrite (trace_proper _ _ (mmul_proper _ _ (RelationClasses.reflexivity (A x)) _ _ ZD)).
    unfold trace, mmul. cbn [csum]. unfold Cplus, Cmult, RtoC. cbn [fst snd]. ring.
  - intros HS. assert (ZZ : forall y, in_box y G -> meq (D y) (fun _ _ => RtoC 0)).
    { intros y Hy. destruct HD as [Halg K]. destruct (Halg y Hy) as [Ha Ht].
      assert (Q : forall (P : R -> cmat) (T : cmat), (forall t, unitary (P t)) -> meq (P 0%R) mid -> mat_derive P 0%R T -> anti_hermitian T -> trace T = RtoC 0 -> re_tr (mmul T (D y)) = 0%R).
      { intros P T HP P0 PT T1 T2. set (Om := fun t => only y (P t) mid). set (A := only y T (fun _ _ => RtoC 0)).
        assert (L : leaves G Om A).
        { intros x _. unfold Om, A, only. destruct (list_eq_dec Z.eq_dec x y); [now split|]. split; [reflexivity|]. intros i j _ _. split; apply der_const. }
        assert (AA : algebra G A).
        { intros x _. unfold A, only. destruct (list_eq_dec Z.eq_dec x y); [now split|]. split; [|unfold trace; cbn [csum]; ring]. intros i j _ _. unfold dag, mscale. rewrite Cconj_R. ring. }
        assert (UU : forall t x, in_box x G -> unitary (Om t x)) by (intros t x _; unfold Om, only; destruct (list_eq_dec Z.eq_dec x y); [apply HP|apply unitary_1]).
        pose proof (is_derive_unique _ _ _ (K Om A L AA)) as E1. pose proof (is_derive_unique _ _ _ (HS Om A UU L AA)) as E2. rewrite E2 in E1.
        rewrite (lsum_only y) in E1.
        - unfold A, only in E1. destruct (list_eq_dec Z.eq_dec y y); [|congruence]. lra.
        - apply NoDup_all_coords.
        - now apply in_all_coords.
        - intros x Hx. unfold A, only. destruct (list_eq_dec Z.eq_dec x y); [congruence|]. unfold re_tr, trace, mmul. cbn [csum]. unfold Cplus, Cmult, RtoC. cbn [fst snd]. ring. }
      apply no_component; [exact Ha|exact Ht| |].
      - intros p q z H Hz. destruct (plane_der p q z H). destruct (plane_alg p q z H). apply (Q (plane p q z)); auto. intros t. now apply plane_unitary.
      - intros p q H. destruct (phases_der p q H). destruct (phases_alg p q H). apply (Q (phases p q)); auto. intros t. now apply phases_unitary. }
    transitivity (lsum (fun _ : list Z => 0%R) (all_coords G)); [|rewrite lsum_const; lra]. apply lsum_ext. intros x Hx. apply in_all_coords in Hx.
    rewrite (norm2_proper _ _ (ZZ x Hx)). unfold norm2, trace, mmul, dag. cbn [csum]. rewrite Cconj_R. unfold Cplus, Cmult, RtoC. cbn [fst snd]. ring.
Qed.
End Stat.

(** ** on the ranks *)
Section G.
Context (g : grid) (Hv : valid_grid g = true).
Context (surf_sched : Z -> list Z) (Hs : forall q, 0 <= q < nranks g -> forall i, In i (surf_sched q) <-> 0 <= i < locVol g).
Context (ord : Z -> nat -> nat -> nat -> Z -> Z -> list Z) (Ho : any_order ord).
Context (U : list Z -> nat -> cmat) (conf : Z -> @qfield cmat) (Hc : holds g U conf).

Lemma dw_nb r A mu : 0 <= r < nranks g -> 0 <= A < locVol g -> (mu < 4)%nat ->
  exists x b, dw g r A mu = Some b /\ 0 <= b < locVol g + bordVol g /\ gc g r A x /\ in_box x (glbSize g) /\ gc g r b (back (glbSize g) x mu).
Proof using Hv.
  clear Hs Ho Hc surf_sched ord U conf. intros Hr HA Hmu. pose proof (vols_nonneg g Hv) as (V0 & V1 & V2).
  destruct (neighbours_main g (coordOfRank g r) Hv (rc_in g Hv r Hr)) as [N1 N2]. destruct (N1 A mu false ltac:(lia) Hmu) as (x & B & E1 & E2 & H).
  destruct (N2 A mu false HA Hmu) as (B' & E3 & RB & _). rewrite E2 in E3. injection E3 as <-.
  destruct H as [[-> ?]|[_ E4]]; [lia|]. exists x, B. split; [exact E2|]. split; [lia|]. repeat split; try assumption. apply (gc_box g Hv r Hr A x); [lia|exact E1].
Qed.
Lemma sum_dag_ok x y : meq (call1 su3_summassign_su3_dag x y) (madd x (dag y)).
Proof. apply (su3_summassign_su3_dag_ok a_out a_x a_x 0%R 0%R). discriminate. Qed.
Lemma subt_ok x y : meq (call1 su3_subtassign x y) (msub x y).
Proof. apply (su3_subtassign_ok a_out a_x a_x 0%R 0%R). Qed.
Lemma madd_proper' a b c d : meq a b -> meq c d -> meq (madd a c) (madd b d).
Proof. intros H H' i j Hi Hj. unfold madd. now rewrite (H i j Hi Hj), (H' i j Hi Hj). Qed.
Lemma msub_proper' a b c d : meq a b -> meq c d -> meq (msub a c) (msub b d).
Proof. intros H H' i j Hi Hj. unfold msub. now rewrite (H i j Hi Hj), (H' i j Hi Hj). Qed.
Section Site.
Context (r : Z) (Hr : 0 <= r < nranks g) (c : @qfield cmat) (Hcc : forall i y mu, 0 <= i < locVol g + bordVol g -> gc g r i y -> (mu < 4)%nat -> c i mu = Some (U y mu)).
Context (A : Z) (x : list Z) (HA : 0 <= A < locVol g) (Hx : gc g r A x).
Lemma around mu : (mu < 4)%nat -> exists b, dw g r A mu = Some b /\ c A mu = Some (U x mu) /\ c b mu = Some (U (back (glbSize g) x mu) mu).
Proof using Hv Hr Hcc HA Hx.
  clear Hs Ho Hc surf_sched ord conf.
  intros Hmu. destruct (dw_nb r A mu Hr HA Hmu) as (y & b & E & Hb & Hy & _ & Gb). assert (y = x) by (unfold gc in *; congruence). subst y.
  pose proof (vols_nonneg g Hv) as (V0 & V1 & V2). exists b. split; [exact E|]. split; apply Hcc; auto. lia.
Qed.
Lemma der_site_ok s : exists d, functional_der g r c A s = Some d /\ meq d (dsum (glbSize g) U s x).
Proof using Hv Hr Hcc HA Hx.
  clear Hs Ho Hc surf_sched ord conf.
  unfold functional_der, dsum.
  assert (K : forall l a b, (forall mu, In mu l -> (mu < 4)%nat) -> meq a b -> exists d,
    fold_left (fun out mu => match dw g r A mu with Some b => op2 (fun x y => call1 su3_summassign_su3_dag x y) (op2 su3_sum out (c A mu)) (c b mu) | None => None end) l (Some a) = Some d /\
    meq d (fold_left (fun d mu => madd (madd d (U x mu)) (dag (U (back (glbSize g) x mu) mu))) l b)).
  { induction l as [|mu l IH]; intros a b Hl H; [exists a; now split|]. cbn [fold_left]. destruct (around mu (Hl mu (or_introl eq_refl))) as (n & -> & -> & ->). cbn [op2].
    apply IH; [intros; apply Hl; now right|]. rewrite sum_dag_ok. apply madd_proper'; [|reflexivity]. rewrite su3_sum_ok. now apply madd_proper'. }
  apply K; [apply in_loop|]. apply (su3_put_to_zero_ok a_out a_x a_x 0%R 0%R).
Qed.
Lemma quality_site_ok s w : quality_site g r c s w A = Some (4 * norm2 (ta (dsum (glbSize g) U s x)))%R.
Proof using Hv Hr Hcc HA Hx.
  clear Hs Ho Hc surf_sched ord conf.
  unfold quality_site. cbv zeta.
  assert (K : forall l a b, (forall mu, In mu l -> (mu < 4)%nat) -> meq a b -> exists d,
    fold_left (fun d mu => match dw g r A mu with Some b => op2 su3_sum (op2 (call1 su3_subtassign) d (c A mu)) (c b mu) | None => None end) l (Some a) = Some d /\
    meq d (fold_left (fun d mu => madd (msub d (U x mu)) (U (back (glbSize g) x mu) mu)) l b)).
  { induction l as [|mu l IH]; intros a b Hl H; [exists a; now split|]. cbn [fold_left]. destruct (around mu (Hl mu (or_introl eq_refl))) as (n & -> & -> & ->). cbn [op2].
    apply IH; [intros; apply Hl; now right|]. rewrite su3_sum_ok. apply madd_proper'; [|reflexivity]. rewrite subt_ok. now apply msub_proper'. }
  destruct (K (loop_mu s) (fun _ _ => RtoC 0) (fun _ _ => RtoC 0) (in_loop s) ltac:(reflexivity)) as (d & E0 & E). unfold cmat in E0 |- *. rewrite E0. cbn [option_map]. do 2 f_equal.
  rewrite su3_norm2_ok, args_w. rewrite <- (ta_delta (glbSize g) U s x). apply norm2_proper. rewrite ta_ok. now apply ta_proper.
Qed.
End Site.

Lemma compute_der_ok s w r : 0 <= r < nranks g ->
  exists d, compute_der g ord surf_sched conf s w r = Some d /\
    forall A x, 0 <= A < locVol g -> glbCoordOfLoclx (rank_labels g r) A = Some x -> exists v, d A = Some v /\ meq v (ta (dsum (glbSize g) U s x)).
Proof.
  intros Hr. unfold compute_der. destruct (halo_main g Hv surf_sched (to_table conf) Hs r Hr) as (t & Et & _). rewrite Et. eexists. split; [reflexivity|].
  pose proof (halo_conf g Hv surf_sched Hs U conf Hc r (of_table t) Hr ltac:(now rewrite Et)) as HC.
  intros A x HA Hx. destruct (der_site_ok r Hr (of_table t) HC A x HA Hx s) as (d & Ed & Md).
  assert (P : PAR ord r 22 0 0 0 (locVol g) (fun i s' => mat_put s' i (der_site g r (of_table t) s (w i) i)) (fun i => Some (w i)) A = der_site g r (of_table t) s (w A) A).
  { unfold PAR. destruct (Ho r 22%nat 0%nat 0%nat 0 (locVol g)) as [N I]. apply I in HA as Hin.
    apply fold_gets with (P := fun s' => s' A = der_site g r (of_table t) s (w A) A) (b := A); [|exact Hin|].
    - intros s' i _ E. unfold mat_put. destruct (Z.eqb_spec A i) as [<-|]; [reflexivity|exact E].
    - intros s'. unfold mat_put. now rewrite Z.eqb_refl. }
  rewrite P. unfold der_site. rewrite Ed. cbn [option_map]. eexists. split; [reflexivity|]. rewrite ta_ok. now apply ta_proper.
Qed.

Section Red.
Context (bk : Z -> ParModel.backend) (ix : Z -> Z -> Z) (Hix : distinct_addresses ix (locVol g) 1) (Hbk : forall k, 0 <= k <= locVol g -> ParSpec.fits (bk k) 0 k).
Lemma reduce_sum (f : list Z -> R) (m : Z -> ParModel.mem R) out :
  (forall r i x, 0 <= r < nranks g -> 0 <= i < locVol g -> gc g r i x -> m r (ix i 0) = f x) ->
  field_reduce bk Rplus ix 1 (locVol g) (map m (seqZ (nranks g))) out -> out 0 = lsum f (all_coords (glbSize g)).
Proof using Hv Hix Hbk.
  clear Hs Ho Hc surf_sched ord conf.
  intros H H3. pose proof (field_reduce_main bk Rplus ix 1 (locVol g) _ _ (fun a b c => eq_sym (Rplus_assoc a b c)) Rplus_comm (locVol_pos g Hv) Hix Hbk H3 0 ltac:(lia)) as T.
  apply total_lsum in T. rewrite <- T, <- (lsum_perm _ _ _ (sites_perm g Hv)). rewrite flat_map_concat_map, map_map, <- flat_map_concat_map, !lsum_flat_map.
  apply lsum_ext. intros r Hr. apply in_seqZ in Hr. rewrite !lsum_map. apply lsum_ext. intros i Hi. apply in_seqZ in Hi.
  destruct (site_coords g r i Hv Hr Hi) as (x & Ex & _). unfold site_of. rewrite Ex. now apply (H r i x).
Qed.
Lemma quality_ok s w q : gauge_fixing_quality g surf_sched bk ix conf s w q ->
  q = (4 / (3 * IZR (prodZ (glbSize g))) * lsum (fun x => norm2 (ta (dsum (glbSize g) U s x))) (all_coords (glbSize g)))%R.
Proof.
  intros (confs & lo & om & H1 & H2 & H3 & ->). rewrite (reduce_sum (fun x => 4 * norm2 (ta (dsum (glbSize g) U s x)))%R lo om) by
   (first [exact H3|intros r i x Hr Hi Hx; pose proof (H2 r i Hr Hi) as E; rewrite (quality_site_ok r Hr (confs r) (halo_conf g Hv surf_sched Hs U conf Hc r _ Hr (H1 r Hr)) i x Hi Hx) in E; congruence]).
  rewrite lsum_scal. unfold glbVol, NCOL. rewrite volOfLx_prodZ. cbn [INR].
  assert (V : IZR (prodZ (glbSize g)) <> 0%R). { apply not_0_IZR. pose proof (prodZ_pos (glbSize g) (glbSize_pos g Hv)). lia. }
  field. exact V.
Qed.
Lemma locF_ok s r i x : 0 <= r < nranks g -> 0 <= i < locVol g -> gc g r i x -> locF_site (conf r) s i = Some (- lsum (fun mu => re_tr (U x mu)) (loop_mu s))%R.
Proof using Hc.
  clear Hs Ho Hix Hbk surf_sched ord bk ix.
  intros Hr Hi Hx. unfold locF_site.
  assert (K : forall l a, (forall mu, In mu l -> (mu < 4)%nat) ->
    fold_left (fun F mu => match F, conf r i mu with Some F, Some U => Some (F - su3_real_trace (args U U U) a_out)%R | _, _ => None end) l (Some a) = Some (a - lsum (fun mu => re_tr (U x mu)) l)%R).
  { induction l as [|mu l IH]; intros a Hl; cbn [fold_left]; [rewrite lsum_nil; f_equal; lra|]. rewrite (Hc r i x mu Hr Hi Hx (Hl mu (or_introl eq_refl))).
    rewrite IH by (intros; apply Hl; now right). rewrite su3_real_trace_ok, args_w, lsum_cons. unfold re_tr. f_equal. lra. }
  rewrite K by apply in_loop. f_equal. lra.
Qed.
Lemma functional_ok s off F : compute_functional g bk ix conf s off F ->
  forall W, (match off with Some o => forall r i x, 0 <= r < nranks g -> 0 <= i < locVol g -> gc g r i x -> o r i = W x | None => forall x, W x = 0%R end) ->
  F = (functional (glbSize g) U s - lsum W (all_coords (glbSize g)))%R.
Proof.
  intros (lf & out & H1 & H2 & ->) W HW.
  rewrite (reduce_sum (fun x => - lsum (fun mu => re_tr (U x mu)) (loop_mu s) - W x)%R lf out); [|intros r i x Hr Hi Hx|exact H2].
  - unfold functional. rewrite fixed_loop. transitivity (lsum (fun x => -1 * lsum (fun mu => re_tr (U x mu)) (loop_mu s) + -1 * W x)%R (all_coords (glbSize g))).
    + apply lsum_ext. intros x _. lra.
    + rewrite lsum_plus, !lsum_scal. lra.
  - destruct (H1 r i Hr Hi) as (v & Ev & ->). rewrite (locF_ok s r i x Hr Hi Hx) in Ev. injection Ev as <-. f_equal. destruct off as [o|]; [now apply HW|now rewrite HW].
Qed.
End Red.
End G.
