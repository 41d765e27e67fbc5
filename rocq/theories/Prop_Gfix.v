(** Property theorems: gauge transformation of the links, functional and derivative of the Landau and Coulomb gauge fixing. *)
From Coq Require Import Reals Lra.
From Coquelicot Require Import Coquelicot.
From Verif Require Import Base GeometryModel GeometrySpec GeoMiscModel HaloModel HaloProofs EoModel ReduceSpec StapleModel StapleSpec StapleProofs Prop_Staple
  CplxModel MatModel MatSpec MatProofs MatProofs2 MatProofs4 MatAlg OwnerProofs ChecksumSpec ChecksumMain StapleMain GaugeModel GaugeSpec GaugeProofs GaugeAlg GaugeForce GaugeExist Prop_Gauge
  IldgProofs ExpSmall GfixModel GfixSpec GfixProofs GfixAlg GfixMain GfixStep GfixExist.
From Verif Require ParModel ParSpec.
Set Bullet Behavior "Strict Subproofs".
Open Scope Z_scope.

(** the same links on all the lattice *)
Definition same_links (G : list Z) (U V : list Z -> nat -> cmat) : Prop := forall x mu, in_box x G -> (mu < 4)%nat -> meq (U x mu) (V x mu).

(** the fields left by the ranks as one field of the whole lattice *)
Definition gather {T} (g : grid) (dflt : T) (conf : Z -> Z -> nat -> option T) (x : list Z) (mu : nat) : T :=
  let '(r, i) := getLoclxAndRankOfCoords g x in match conf r i mu with Some v => v | None => dflt end.
Lemma gather_holds g (conf : Z -> Z -> nat -> option cmat) V : valid_grid g = true ->
  (forall r A x mu, 0 <= r < nranks g -> 0 <= A < locVol g -> glbCoordOfLoclx (rank_labels g r) A = Some x -> (mu < 4)%nat -> exists v, conf r A mu = Some v /\ meq v (V x mu)) ->
  exists U', holds g U' conf /\ same_links (glbSize g) U' V.
Proof.
  intros Hv H. exists (gather g mid conf). split.
  - intros q i x mu Hq Hi Hx Hmu. unfold gather. destruct (site_coords g q i Hv Hq Hi) as (y & Ey & By & Gy). assert (y = x) by (unfold IldgModel.glb_coords, rank_labels in *; congruence). subst y. rewrite Gy.
    destruct (H q i x mu Hq Hi Hx Hmu) as (v & -> & _). reflexivity.
  - intros x mu Hx Hmu. unfold gather. destruct (getLoclxAndRankOfCoords g x) as [r i] eqn:E. destruct (owner_site g Hv x r i Hx E) as (Hr & Hi & Hg).
    destruct (H r i x mu Hr Hi Hg Hmu) as (v & -> & M). exact M.
Qed.

(** C85: after the transformation the ranks have the links seen from the new bases, also when the output is the field which is transformed; the halo of
    the output and the transformation on the sites of the rank are not touched *)
Theorem C85_transform :
  forall g ord surf_sched Om gm U conf uout (inplace : bool), valid_grid g = true -> any_order ord -> surface_order g surf_sched -> holds_m g Om gm -> holds g U conf ->
  (inplace = true -> uout = conf) ->
  exists conf' gm' U',
    (forall r, 0 <= r < nranks g -> gauge_transform_conf g ord surf_sched uout gm (if inplace then None else Some conf) r = Some (conf' r, gm' r) /\
       (forall i mu, ~ (0 <= i < locVol g) -> conf' r i mu = uout r i mu) /\ (forall i, 0 <= i < locVol g -> gm' r i = gm r i)) /\
    holds g U' conf' /\ same_links (glbSize g) U' (transformed (glbSize g) Om U).
Proof.
  intros g ord ss Om gm U conf uout inplace Hv Ho Hs Hg Hc Hin.
  set (res := fun r => gauge_transform_conf g ord ss uout gm (if inplace then None else Some conf) r).
  set (conf' := fun r => match res r with Some (u, _) => u | None => fun _ _ => None end).
  set (gm' := fun r => match res r with Some (_, h) => h | None => fun _ => None end).
  assert (R : forall r, 0 <= r < nranks g -> res r = Some (conf' r, gm' r) /\
    (forall A x mu, 0 <= A < locVol g -> glbCoordOfLoclx (rank_labels g r) A = Some x -> (mu < 4)%nat -> exists v, conf' r A mu = Some v /\ meq v (transformed (glbSize g) Om U x mu)) /\
    (forall i mu, ~ (0 <= i < locVol g) -> conf' r i mu = uout r i mu) /\ (forall i, 0 <= i < locVol g -> gm' r i = gm r i)).
  { intros r Hr. destruct (transform_run g Hv ss Hs ord Ho Om gm U conf uout inplace r Hg Hc Hin Hr) as (u & h & E & K). unfold conf', gm'. fold (res r) in E. rewrite E. now split. }
  destruct (gather_holds g conf' (transformed (glbSize g) Om U) Hv) as (U' & H1 & H2); [intros r A x mu Hr; now apply R|].
  exists conf', gm', U'. split; [|now split]. intros r Hr. destruct (R r Hr) as (E & _ & K1 & K2). now repeat split.
Qed.
Print Assumptions C85_transform.

(** C85: the same for fields split into even and odd sites *)
Theorem C85_transform_eo :
  forall g ord surf_sched Om gm U conf uout (inplace : bool), valid_grid g = true -> eo_grid_ok g = true -> any_order ord -> surface_order g surf_sched -> holds_meo g Om gm -> holds_qeo g U conf ->
  (inplace = true -> uout = conf) ->
  forall r, 0 <= r < nranks g ->
  exists u, gauge_transform_conf_eo g ord surf_sched uout gm (if inplace then None else Some conf) r = Some u /\
    (forall p k i x mu, p = 0 \/ p = 1 -> 0 <= k < locVolh g -> loclx_of_loceo (rank_eo g r) p k = Some i -> glbCoordOfLoclx (rank_labels g r) i = Some x -> (mu < 4)%nat ->
       exists v, u p k mu = Some v /\ meq v (transformed (glbSize g) Om U x mu)) /\
    (forall p i mu, ~ (0 <= i < locVolh g) -> u p i mu = uout r p i mu).
Proof. intros g ord ss Om gm U conf uout inplace Hv He Ho Hs Hg Hc Hin r Hr. now apply transform_eo_run. Qed.
Print Assumptions C85_transform_eo.

(** C85: the plaquettes reported before and after are the same, when the transformation is unitary *)
Theorem C85_plaquette :
  forall g ord surf_sched bk ix Om gm U conf uout (inplace : bool), valid_grid g = true -> any_order ord -> surface_order g surf_sched -> launchable g bk -> distinct_addresses ix (locVol g) 2 ->
  holds_m g Om gm -> holds g U conf -> (inplace = true -> uout = conf) -> (forall x, in_box x (glbSize g) -> unitary (Om x)) ->
  forall conf' gm' tot tot', (forall r, 0 <= r < nranks g -> gauge_transform_conf g ord surf_sched uout gm (if inplace then None else Some conf) r = Some (conf' r, gm' r)) ->
  global_plaquette_lx_conf g surf_sched bk ix conf tot -> global_plaquette_lx_conf g surf_sched bk ix conf' tot' ->
  tot 0%nat = tot' 0%nat /\ tot 1%nat = tot' 1%nat.
Proof.
  intros g ord ss bk ix Om gm U conf uout inplace Hv Ho Hs Hb Hix Hg Hc Hin HU conf' gm' tot tot' Hr P P'.
  destruct (C85_transform g ord ss Om gm U conf uout inplace Hv Ho Hs Hg Hc Hin) as (c2 & g2 & U' & K & H1 & H2).
  assert (H1' : holds g U' conf').
  { intros q i x mu Hq Hi Hx Hmu. destruct (K q Hq) as [E _]. rewrite Hr in E by exact Hq. injection E as -> _. now apply H1. }
  set (T := transformed (glbSize g) Om U).
  (* a field with these very matrices *)
  set (cT := fun r i mu => match glbCoordOfLoclx (rank_labels g r) i with Some x => Some (T x mu) | None => None end).
  assert (HT : holds g T cT) by (intros q i x mu _ _ Hx _; unfold cT; now rewrite Hx).
  destruct (C83_plaquette g ss bk ix T cT Hv Hs Hb Hix HT) as [[totT PT] _].
  destruct (C83_gauge_invariant g ss ss bk bk ix ix U Om conf cT Hv Hs Hs Hb Hb Hix Hix HU Hc HT tot totT P PT) as [-> ->].
  destruct (C83_plaquette g ss bk ix T cT Hv Hs Hb Hix HT) as [_ VT]. destruct (VT totT PT) as [-> ->].
  destruct (C83_plaquette g ss bk ix U' conf' Hv Hs Hb Hix H1') as [_ V']. destruct (V' tot' P') as [-> ->].
  assert (W : forall l, (forall p, In p l -> (fst p < 4 /\ snd p < 4)%nat) -> mean_plaquette (glbSize g) T l = mean_plaquette (glbSize g) U' l).
  { intros l Hl. unfold mean_plaquette. f_equal. apply lsum_ext. intros x Hx. apply in_all_coords in Hx. apply lsum_ext. intros p Hp. destruct (Hl p Hp) as [L1 L2].
    assert (L4 : length (glbSize g) = 4%nat) by (apply IldgProofs.glb_len; exact Hv).
    f_equal. unfold re_tr. f_equal. apply trace_proper. unfold plaquette.
    assert (Hxm : in_box (step (glbSize g) x (fst p)) (glbSize g)) by (apply shift_in_box; [exact Hx|lia]). assert (Hxn : in_box (step (glbSize g) x (snd p)) (glbSize g)) by (apply shift_in_box; [exact Hx|lia]).
    now rewrite (H2 x (fst p) Hx L1), (H2 x (snd p) Hx L2), (H2 _ (snd p) Hxm L2), (H2 _ (fst p) Hxn L1). }
  split; apply W; intros p Hp; cbn in Hp; intuition (subst; cbn; lia).
Qed.
Print Assumptions C85_plaquette.

(** C86: the functional reported is minus the sum of the real part of the traces of the links of the directions to be fixed, minus the offset; it is always reported *)
Theorem C86_functional :
  forall g bk ix U conf first off W, valid_grid g = true -> launchable g bk -> distinct_addresses ix (locVol g) 1 -> holds g U conf ->
  (match off with Some o => forall r i x, 0 <= r < nranks g -> 0 <= i < locVol g -> glbCoordOfLoclx (rank_labels g r) i = Some x -> o r i = W x | None => forall x, W x = 0%R end) ->
  (exists F, compute_functional g bk ix conf first off F) /\
  forall F, compute_functional g bk ix conf first off F -> F = (functional (glbSize g) U first - lsum W (all_coords (glbSize g)))%R.
Proof.
  intros g bk ix U conf first off W Hv Hb Hi Hc HW. split; [now apply functional_exists with U|]. intros F HF.
  exact (functional_ok g Hv U conf Hc bk ix Hi Hb first off F HF W HW).
Qed.
Print Assumptions C86_functional.

(** C86: the matrices used as derivative are minus the gradient of the functional with respect to changes of the bases; the quality reported is their squared norm, four
    thirds of the average on the sites, and it is zero if and only if no change of the bases changes the functional at the first order *)
Theorem C86_gradient :
  forall g ord surf_sched bk ix U conf first w dw, valid_grid g = true -> any_order ord -> surface_order g surf_sched -> launchable g bk -> distinct_addresses ix (locVol g) 1 -> holds g U conf ->
  exists D,
    (forall r, 0 <= r < nranks g -> exists d, compute_der g ord surf_sched conf first dw r = Some d /\
       forall A x, 0 <= A < locVol g -> glbCoordOfLoclx (rank_labels g r) A = Some x -> exists v, d A = Some v /\ meq v (D x)) /\
    minus_gradient (glbSize g) U first D /\
    (exists q, gauge_fixing_quality g surf_sched bk ix conf first w q) /\
    forall q, gauge_fixing_quality g surf_sched bk ix conf first w q ->
      q = (4 / 3 * (lsum (fun x => norm2 (D x)) (all_coords (glbSize g)) / IZR (prodZ (glbSize g))))%R /\
      (q = 0%R <-> stationary (glbSize g) U first).
Proof.
  intros g ord ss bk ix U conf first w dw' Hv Ho Hs Hb Hi Hc. assert (L4 : length (glbSize g) = 4%nat) by (apply IldgProofs.glb_len; exact Hv).
  exists (fun x => ta (dsum (glbSize g) U first x)). split; [intros r Hr; now apply compute_der_ok|]. pose proof (gradient_ok (glbSize g) L4 U first) as MG. split; [exact MG|].
  split; [now apply quality_exists with U|]. intros q Hq.
  assert (V : (IZR (prodZ (glbSize g)) > 0)%R). { apply IZR_lt. apply (prodZ_pos (glbSize g) (glbSize_pos g Hv)). }
  pose proof (quality_ok g Hv ss Hs U conf Hc bk ix Hi Hb first w q Hq) as E. split; [rewrite E; field; lra|].
  rewrite <- (stationary_iff (glbSize g) U first _ MG), E. set (S := lsum _ _). split; intros H; [|rewrite H; lra].
  apply Rmult_integral in H as [H|H]; [|exact H]. exfalso. assert (4 / (3 * IZR (prodZ (glbSize g))) > 0)%R by (apply Rdiv_lt_0_compat; lra). lra.
Qed.
Print Assumptions C86_gradient.

Lemma add_current_ok gm f : meq (add_current_transformation gm f) (mmul gm f).
Proof. apply (safe_su3_prod_su3_ok a_out a_x a_y [3%nat]); discriminate. Qed.

(** C86: moving the transformation which has led here by the step of the exponentiating method, in the direction of the derivative, the functional decreases: at the first
    order in the length of the step, by 3/8 of the volume times the quality *)
Theorem C86_descent :
  forall g ord surf_sched bk ix V Fix U conf first w dw q, valid_grid g = true -> any_order ord -> surface_order g surf_sched -> launchable g bk -> distinct_addresses ix (locVol g) 1 -> holds g U conf ->
  same_links (glbSize g) U (transformed (glbSize g) Fix V) -> gauge_fixing_quality g surf_sched bk ix conf first w q ->
  exists D,
    (forall r, 0 <= r < nranks g -> exists d, compute_der g ord surf_sched conf first dw r = Some d /\
       forall A x, 0 <= A < locVol g -> glbCoordOfLoclx (rank_labels g r) A = Some x -> exists v, d A = Some v /\ meq v (D x)) /\
    is_derive (fun alpha => functional (glbSize g) (transformed (glbSize g) (fun x => add_current_transformation (exp_der_alpha_half (D x) alpha) (Fix x)) V) first) 0%R
      (- (3 / 8 * IZR (prodZ (glbSize g)) * q))%R.
Proof.
  intros g ord ss bk ix V Fix U conf first w dw' q Hv Ho Hs Hb Hi Hc HT Hq. assert (L4 : length (glbSize g) = 4%nat) by (apply IldgProofs.glb_len; exact Hv).
  set (G := glbSize g) in *. exists (fun x => ta (dsum G U first x)). split; [intros r Hr; now apply compute_der_ok|].
  pose proof (gradient_ok G L4 U first) as [Halg K].
  assert (L : leaves G (fun alpha x => exp_der_alpha_half (ta (dsum G U first x)) alpha) (fun x => mscale (RtoC (- / 2)) (ta (dsum G U first x)))).
  { intros x _. split; [apply exp_step_0|apply exp_step_der]. }
  assert (A : algebra G (fun x => mscale (RtoC (- / 2)) (ta (dsum G U first x)))).
  { intros x Hx. destruct (Halg x Hx) as [A1 A2]. split.
    - intros i j Hi' Hj. specialize (A1 i j Hi' Hj). unfold dag, mscale in *. rewrite Cconj_mult, Cconj_R, A1. ring.
    - transitivity (RtoC (- / 2) * trace (ta (dsum G U first x)))%C; [unfold trace, mscale; cbn [csum]; ring|]. rewrite A2. ring. }
  specialize (K _ _ L A). eapply der_eq; [eapply der_ext; [|exact K]|].
  - intros alpha. cbv beta. unfold functional. apply (f_equal Ropp). apply lsum_ext. intros x Hx. apply in_all_coords in Hx. apply lsum_ext. intros mu Hmu.
    assert (Hm : (mu < 4)%nat). { unfold fixed_dirs in Hmu. apply filter_In in Hmu as [Hmu _]. now apply in_dirs. }
    unfold re_tr. apply (f_equal fst). apply trace_proper. unfold transformed at 1 2. rewrite (HT x mu Hx Hm). unfold transformed.
    rewrite !add_current_ok, dag_mul, !mmul_assoc. reflexivity.
  - cbv beta. rewrite (quality_ok g Hv ss Hs U conf Hc bk ix Hi Hb first w q Hq). fold G. set (S := lsum (fun x => norm2 (ta (dsum G U first x))) (all_coords G)).
    assert (VV : (IZR (prodZ G) > 0)%R). { apply IZR_lt. apply (prodZ_pos (glbSize g) (glbSize_pos g Hv)). }
    transitivity (- (/ 2 * S))%R; [|field; lra]. f_equal. unfold S. rewrite <- lsum_scal. apply lsum_ext. intros x Hx. apply in_all_coords in Hx.
    destruct (Halg x Hx) as [A1 _]. pose proof (ah_square _ A1) as E.
    transitivity (- / 2 * re_tr (mmul (ta (dsum G U first x)) (ta (dsum G U first x))))%R; [|rewrite E; lra].
    unfold re_tr, trace, mmul, mscale. cbn [csum]. unfold Cplus, Cmult, RtoC. cbn [fst snd]. lra.
Qed.
Print Assumptions C86_descent.

(** a lattice of 4x4x2x2 sites on four ranks, with all the links equal to one but those of direction 1 leaving from coordinate 0 of this direction, which turn the first two colours *)
Definition gx_link (x : list Z) (mu : nat) : cmat := if (Nat.eqb mu 1 && (nth 1 x 0%Z =? 0))%bool then turn 1 else mid.
Definition gx_conf (q i : Z) (mu : nat) : option cmat := option_map (fun x => gx_link x mu) (glbCoordOfLoclx (rank_labels st_grid q) i).
Lemma gx_holds : holds st_grid gx_link gx_conf.
Proof. intros q i x mu _ _ Hx _. unfold gx_conf. now rewrite Hx. Qed.
Definition gx_om (x : list Z) : cmat := turn (IZR (nth 1 x 0)).
Definition gx_m (q i : Z) : option cmat := option_map gx_om (glbCoordOfLoclx (rank_labels st_grid q) i).
Lemma turn_unitary s : unitary (turn s).
Proof.
  intros i j Hi Hj. pose proof (sin2_cos2 s) as E. unfold Rsqr in E.
  destruct i as [|[|[|]]], j as [|[|[|]]]; try lia; unfold mmul, dag, turn, mid; cbn [csum Nat.eqb]; rewrite ?Cconj_R; apply injective_projections; unfold Cplus, Cmult, RtoC; cbn [fst snd]; nra.
Qed.
Definition st_surf : Z -> list Z := fun _ => seqZ (locVol st_grid).
Lemma st_surf_ok : surface_order st_grid st_surf.
Proof. intros q _ i. apply in_seqZ. Qed.
Definition st_ord : Z -> nat -> nat -> nat -> Z -> Z -> list Z := fun _ _ _ _ lo hi => map (fun k => lo + k) (seqZ (hi - lo)).
Lemma st_ord_ok : any_order st_ord.
Proof.
  intros r l a b lo hi. unfold st_ord. split.
  - apply FinFun.Injective_map_NoDup; [intros p q; lia|apply NoDup_seqZ].
  - intros i. rewrite in_map_iff. split; [intros (k & <- & H); apply in_seqZ in H; lia|]. intros H. exists (i - lo). split; [lia|]. apply in_seqZ. lia.
Qed.
Example C85_ex : exists conf' gm' U',
  (forall r, 0 <= r < nranks st_grid -> gauge_transform_conf st_grid st_ord st_surf gx_conf gx_m None r = Some (conf' r, gm' r)) /\ holds st_grid U' conf' /\
  U' [0; 0; 0; 0] 1%nat 0%nat 1%nat = RtoC 0 /\ U' [0; 1; 0; 0] 1%nat 0%nat 1%nat = RtoC (sin 1) /\ (forall x, unitary (gx_om x)).
Proof.
  destruct (C85_transform st_grid st_ord st_surf gx_om gx_m gx_link gx_conf gx_conf true eq_refl st_ord_ok st_surf_ok) as (c & m & U' & H1 & H2 & H3).
  { intros q i x _ _ Hx. unfold gx_m. now rewrite Hx. }
  { exact gx_holds. }
  { reflexivity. }
  exists c, m, U'. split; [intros r Hr; now apply H1|]. split; [exact H2|]. split; [|split].
  - rewrite (H3 [0;0;0;0] 1%nat); [|repeat constructor; cbn; lia|lia|lia|lia]. unfold transformed, gx_link, gx_om.
    change (step (glbSize st_grid) [0;0;0;0] 1) with [0;1;0;0]. cbn [nth Nat.eqb andb Z.eqb]. unfold mmul, dag, turn, mid. cbn [csum Nat.eqb]. rewrite cos_0, sin_0, !Cconj_R.
    apply injective_projections; unfold Cplus, Cmult, RtoC; cbn [fst snd]; ring.
  - rewrite (H3 [0;1;0;0] 1%nat); [|repeat constructor; cbn; lia|lia|lia|lia]. unfold transformed, gx_link, gx_om.
    change (step (glbSize st_grid) [0;1;0;0] 1) with [0;2;0;0]. cbn [nth Nat.eqb andb Z.eqb]. unfold mmul, dag, turn, mid. cbn [csum Nat.eqb]. rewrite !Cconj_R.
    apply injective_projections; unfold Cplus, Cmult, RtoC; cbn [fst snd]; [|ring]. assert (E : sin 1 = (sin 2 * cos 1 - cos 2 * sin 1)%R) by (rewrite <- sin_minus; f_equal; lra). transitivity (sin 2 * cos 1 - cos 2 * sin 1)%R; [ring|symmetry; exact E].
  - intros x. apply turn_unitary.
Qed.
(** the quality of this configuration is not zero *)
Example C86_ex : exists q, gauge_fixing_quality st_grid st_surf (fun _ => ParModel.OpenMP) (fun i d => i + d) gx_conf 0 mid q /\ (0 < q)%R.
Proof.
  assert (Hb : launchable st_grid (fun _ => ParModel.OpenMP)) by (intros k Hk; split; [lia|exact I]).
  assert (Hi : distinct_addresses (fun i d => i + d) (locVol st_grid) 1) by (intros i d j e; intros; split; lia).
  destruct (C86_gradient st_grid st_ord st_surf (fun _ => ParModel.OpenMP) (fun i d => i + d) gx_link gx_conf 0 mid (fun _ => mid) eq_refl st_ord_ok st_surf_ok Hb Hi gx_holds) as (D & HD & MG & [q Hq] & Q).
  exists q. split; [exact Hq|]. destruct (Q q Hq) as [E S].
  assert (N : q <> 0%R).
  { intros Z0. apply S in Z0. pose proof (gradient_ok (glbSize st_grid) eq_refl gx_link 0) as MG2. apply (stationary_iff _ _ _ _ MG2) in Z0.
    pose proof (lsum_zero _ _ (fun y _ => norm2_pos _) Z0 [0;0;0;0]) as K. cbv beta in K. assert (B : in_box [0;0;0;0] (glbSize st_grid)) by (repeat constructor; cbn; lia). specialize (K (proj2 (in_all_coords _ _) B)).
    apply norm2_zero in K. specialize (K 0%nat 1%nat ltac:(lia) ltac:(lia)). unfold ta, dsum, loop_mu in K. cbn [seq fold_left Nat.sub] in K.
    assert (S1 : (0 < sin 1)%R) by (apply sin_gt_0; [lra|]; pose proof PI2_3_2; unfold PI2 in *; lra).
    revert K. unfold madd, dag, gx_link. cbn [Nat.eqb andb nth]. cbn. unfold mid. cbn. intros K. injection K. intros _ K'. lra. }
  assert (P : (0 <= q)%R). { rewrite E. apply Rmult_le_pos; [lra|]. apply Rmult_le_pos; [|apply Rlt_le, Rinv_0_lt_compat, IZR_lt; reflexivity]. apply lsum_nonneg. intros; apply norm2_pos. }
  lra.
Qed.
