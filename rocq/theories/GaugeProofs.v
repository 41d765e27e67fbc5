(** Proofs about GaugeModel: matrices in memory, sums, halo, plaquette. *)
From Coq Require Import Reals Lra Permutation Morphisms.
From Coquelicot Require Import Complex.
From Verif Require Import Base GeometryModel GeometrySpec GeometryProofs OwnerProofs GeoMiscModel HaloModel HaloProofs ReduceModel ReduceSpec ReduceMain StapleModel StapleSpec StapleProofs
  CplxModel MatModel MatSpec MatProofs MatProofs2 MatProofs3 MatProofs4 MatAlg IldgModel IldgProofs ChecksumSpec ChecksumMain GaugeModel GaugeSpec.
From Verif Require ParModel ParSpec.
Open Scope Z_scope.

(** ** the routines *)
Lemma args_x w x y : mat (args w x y) a_x = x. Proof. reflexivity. Qed.
Lemma args_y w x y : mat (args w x y) a_y = y. Proof. reflexivity. Qed.
Lemma args_w w x y : mat (args w x y) a_out = w. Proof. reflexivity. Qed.
Lemma su3_prod_ok x y : meq (su3_prod x y) (mmul x y).
Proof. apply (unsafe_su3_prod_su3_ok a_out a_x a_y); discriminate. Qed.
Lemma su3_prod_dag_ok x y : meq (su3_prod_dag x y) (mmul x (dag y)).
Proof. apply (unsafe_su3_prod_su3_dag_ok a_out a_x a_y); discriminate. Qed.
Lemma su3_dag_prod_ok x y : meq (su3_dag_prod x y) (mmul (dag x) y).
Proof. apply (unsafe_su3_dag_prod_su3_ok a_out a_x a_y); discriminate. Qed.
Lemma su3_sum_ok x y : meq (su3_sum x y) (madd x y).
Proof. apply (su3_summassign_ok a_out a_x a_x 0%R 0%R). Qed.
Lemma herm_ok r x : meq (call0 (fun a b => safe_su3_hermitian_prod_double a b r) x) (mscale (RtoC r) (dag x)).
Proof. apply (safe_su3_hermitian_prod_double_ok a_out a_out). Qed.
Lemma ta_ok w x : meq (call1 unsafe_su3_traceless_anti_hermitian_part w x) (traceless_part (anti_herm_part x)).
Proof. apply (unsafe_su3_traceless_anti_hermitian_part_ok a_out a_x). Qed.

(** ** sums *)
Section Sums.
Context {A B : Type}.
Lemma lsum_cons (f : A -> R) x l : lsum f (x :: l) = (f x + lsum f l)%R. Proof. reflexivity. Qed.
Lemma lsum_nil (f : A -> R) : lsum f [] = 0%R. Proof. reflexivity. Qed.
Lemma lsum_app (f : A -> R) l l' : lsum f (l ++ l') = (lsum f l + lsum f l')%R.
Proof. induction l as [|x l IH]; cbn [app]; [rewrite lsum_nil; lra|]. rewrite !lsum_cons, IH. lra. Qed.
Lemma lsum_ext (f h : A -> R) l : (forall x, In x l -> f x = h x) -> lsum f l = lsum h l.
Proof. induction l as [|x l IH]; intros H; [reflexivity|]. rewrite !lsum_cons. f_equal; [apply H; now left|apply IH; intros; apply H; now right]. Qed.
Lemma lsum_plus (f h : A -> R) l : lsum (fun x => f x + h x)%R l = (lsum f l + lsum h l)%R.
Proof. induction l as [|x l IH]; [rewrite !lsum_nil; lra|]. rewrite !lsum_cons, IH. lra. Qed.
Lemma lsum_scal c (f : A -> R) l : lsum (fun x => c * f x)%R l = (c * lsum f l)%R.
Proof. induction l as [|x l IH]; [rewrite !lsum_nil; lra|]. rewrite !lsum_cons, IH. lra. Qed.
Lemma lsum_const c (l : list A) : lsum (fun _ => c) l = (INR (length l) * c)%R.
Proof. induction l as [|x l IH]; [rewrite lsum_nil; cbn; lra|]. rewrite lsum_cons, IH. cbn [length]. rewrite S_INR. lra. Qed.
Lemma lsum_perm (f : A -> R) l l' : Permutation l l' -> lsum f l = lsum f l'.
Proof. induction 1; rewrite ?lsum_cons; lra. Qed.
Lemma lsum_map (f : A -> R) (h : B -> A) l : lsum f (map h l) = lsum (fun x => f (h x)) l.
Proof. unfold lsum. now rewrite map_map. Qed.
Lemma lsum_flat_map (f : A -> R) (h : B -> list A) l : lsum f (flat_map h l) = lsum (fun x => lsum f (h x)) l.
Proof. induction l as [|x l IH]; [reflexivity|]. cbn [flat_map]. rewrite lsum_app, IH. reflexivity. Qed.
End Sums.
Lemma lsum_swap {A B} (f : A -> B -> R) l l' : lsum (fun x => lsum (f x) l') l = lsum (fun y => lsum (fun x => f x y) l) l'.
Proof.
  induction l as [|x l IH].
  - rewrite lsum_nil. transitivity (lsum (fun _ : B => 0%R) l'); [|apply lsum_ext; reflexivity]. rewrite lsum_const. lra.
  - rewrite lsum_cons, IH, <- lsum_plus. apply lsum_ext. reflexivity.
Qed.
Lemma total_lsum l z : total Rplus l = Some z -> lsum (fun x => x) l = z.
Proof.
  revert z. induction l as [|x l IH]; intros z; cbn [total]; [discriminate|]. rewrite lsum_cons. destruct (total Rplus l) as [y|] eqn:E.
  - intros [= <-]. now rewrite (IH y eq_refl).
  - intros [= <-]. destruct l as [|y l]; [rewrite lsum_nil; lra|]. cbn [total] in E. destruct (total Rplus l); discriminate.
Qed.

(** ** sites *)
Section G.
Context (g : grid) (Hv : valid_grid g = true).
Lemma owner_site x r i : in_box x (glbSize g) -> getLoclxAndRankOfCoords g x = (r, i) -> 0 <= r < nranks g /\ 0 <= i < locVol g /\ gc g r i x.
Proof.
  intros Hx E. destruct (owner_fwd g x Hv Hx r i E) as (Hr & Hi & _). split; [exact Hr|]. split; [exact Hi|].
  destruct (site_coords g r i Hv Hr Hi) as (y & Ey & By & Gy). replace x with y; [exact Ey|]. apply (owner_inj g y x Hv); [exact By|exact Hx|congruence].
Qed.
Context (surf_sched : Z -> list Z) (Hs : forall q, 0 <= q < nranks g -> forall i, In i (surf_sched q) <-> 0 <= i < locVol g).
Context (U : list Z -> nat -> cmat) (conf : Z -> @qfield cmat).
Context (Hc : forall q i x mu, 0 <= q < nranks g -> 0 <= i < locVol g -> gc g q i x -> (mu < 4)%nat -> conf q i mu = Some (U x mu)).

(** after the halo has been updated, all the links around are there *)
Lemma halo_conf r c : 0 <= r < nranks g -> option_map of_table (updateHalo g surf_sched (to_table conf) r) = Some c ->
  forall i x mu, 0 <= i < locVol g + bordVol g -> gc g r i x -> (mu < 4)%nat -> c i mu = Some (U x mu).
Proof.
  intros Hr E i x mu Hi Hx Hmu. pose proof (vols_nonneg g Hv) as (V0 & V1 & V2).
  destruct (halo_main g Hv surf_sched (to_table conf) Hs r Hr) as (d & Ed & K1 & K2). rewrite Ed in E. injection E as <-. unfold of_table.
  destruct (Z_lt_ge_dec i (locVol g)) as [H|H].
  - rewrite K1 by lia. unfold to_table. apply (Hc r); auto. lia.
  - destruct (K2 i ltac:(lia)) as (y & q & j & Ey & Gy & Hq & Hj & ->). unfold to_table.
    apply Hc; try assumption. unfold gc in Hx. rewrite Hx in Ey. injection Ey as ->.
    destruct (owner_site y q j) as (_ & _ & ?); [|exact Gy|assumption]. apply (gc_box g Hv r Hr i); [lia|exact Hx].
Qed.

Definition all_planes : list (nat * nat) := flat_map (fun mu => map (fun nu => (mu, nu)) (seq (mu + 1) (4 - (mu + 1)))) (seq 0 4).
Definition ts_of (p : nat * nat) : nat := if negb (Nat.eqb (fst p) 0) && negb (Nat.eqb (snd p) 0) then 1%nat else 0%nat.
Lemma point_ok r c A x : 0 <= r < nranks g -> (forall i y mu, 0 <= i < locVol g + bordVol g -> gc g r i y -> (mu < 4)%nat -> c i mu = Some (U y mu)) ->
  0 <= A < locVol g -> gc g r A x -> forall l p, (forall q, In q l -> (fst q < 4 /\ snd q < 4)%nat) ->
  exists p', fold_left (plaq_addend g r c A) l (Some p) = Some p' /\
    forall k, p' k = (p k + lsum (fun q => re_tr (plaquette (glbSize g) U x (fst q) (snd q))) (filter (fun q => Nat.eqb k (ts_of q)) l))%R.
Proof. clear Hs Hc conf surf_sched.
  intros Hr Hcc HA Hx l. pose proof (vols_nonneg g Hv) as (V0 & V1 & V2). induction l as [|[mu nu] l IH]; intros p Hl.
  - exists p. split; [reflexivity|]. intros k. cbn [filter]. rewrite lsum_nil. lra.
  - cbn [fold_left]. destruct (Hl (mu, nu) (or_introl eq_refl)) as [Hmu Hnu]. cbn [fst snd] in Hmu, Hnu.
    destruct (up_nb g Hv r Hr A mu HA Hmu) as (x1 & B & EB & HB & Hx1 & Bx & GB). assert (x1 = x) by (unfold gc in *; congruence). subst x1.
    destruct (up_nb g Hv r Hr A nu HA Hnu) as (x1 & C & EC & HC & Hx1' & _ & GC). assert (x1 = x) by (unfold gc in *; congruence). subst x1.
    unfold plaq_addend at 2. rewrite EB, EC.
    assert (Hh : forall i, here g i -> 0 <= i < locVol g + bordVol g) by (unfold here, bordVol in *; intros; lia).
    rewrite (Hcc A x mu), (Hcc B _ nu (Hh B HB) GB Hnu), (Hcc A x nu), (Hcc C _ mu (Hh C HC) GC Hmu); try assumption; try lia. cbn [op2].
    match goal with |- exists _, fold_left _ l (Some ?q) = _ /\ _ => destruct (IH q) as (p' & E & H) end; [intros; apply Hl; now right|].
    exists p'. split; [exact E|]. intros k. rewrite H. cbn [filter]. unfold ts_of at 2. cbn [fst snd]. destruct (Nat.eqb k _); [|reflexivity].
    rewrite lsum_cons. cbn [fst snd]. rewrite real_part_of_trace_su3_prod_su3_dag_ok, args_w, args_x. unfold re_tr, plaquette.
    rewrite !su3_prod_ok. lra.
Qed.
Lemma locVol_pos : 0 < locVol g.
Proof using Hv. rewrite (locVol_prod g Hv). apply prodZ_pos. apply locSize_pos. exact Hv. Qed.

Lemma plaq_main bk ix tot : distinct_addresses ix (locVol g) 2 -> (forall k, 0 <= k <= locVol g -> ParSpec.fits (bk k) 0 k) ->
  global_plaquette_lx_conf g surf_sched bk ix conf tot ->
  tot 0%nat = mean_plaquette (glbSize g) U time_planes /\ tot 1%nat = mean_plaquette (glbSize g) U space_planes.
Proof.
  intros Hix Hbk (confs & pp & temp & H1 & H2 & H3 & H4).
  assert (S : forall ts, (ts < 2)%nat -> temp (Z.of_nat ts) = lsum (fun x => lsum (fun q => re_tr (plaquette (glbSize g) U x (fst q) (snd q))) (filter (fun q => Nat.eqb ts (ts_of q)) all_planes)) (all_coords (glbSize g))).
  { intros ts Hts. pose proof (field_reduce_main bk Rplus ix 2 (locVol g) _ _ (fun a b c => eq_sym (Rplus_assoc a b c)) Rplus_comm locVol_pos Hix Hbk H3 (Z.of_nat ts) ltac:(lia)) as T.
    apply total_lsum in T. rewrite <- T, <- (lsum_perm _ _ _ (sites_perm g Hv)). rewrite flat_map_concat_map, map_map, <- flat_map_concat_map, !lsum_flat_map.
    apply lsum_ext. intros r Hr. apply in_seqZ in Hr. rewrite !lsum_map. apply lsum_ext. intros i Hi. apply in_seqZ in Hi.
    destruct (H2 r i Hr Hi) as (p & Ep & ->); [|exact Hts]. destruct (site_coords g r i Hv Hr Hi) as (x & Ex & _). unfold site_of. rewrite Ex.
    unfold point_plaquette_lx_conf in Ep. fold all_planes in Ep.
    destruct (point_ok r (confs r) i x Hr (halo_conf r _ Hr (H1 r Hr)) Hi Ex all_planes (fun _ => 0%R)) as (p' & E' & F).
    - intros q Hq. cbn in Hq. intuition (subst; cbn; lia).
    - rewrite Ep in E'. injection E' as ->. rewrite F. lra. }
  pose proof (H4 0%nat ltac:(lia)) as T0. pose proof (H4 1%nat ltac:(lia)) as T1. rewrite (S 0%nat ltac:(lia)) in T0. rewrite (S 1%nat ltac:(lia)) in T1.
  assert (V : IZR (prodZ (glbSize g)) <> 0%R). { apply not_0_IZR. pose proof (prodZ_pos (glbSize g) (glbSize_pos g Hv)). lia. }
  unfold mean_plaquette. unfold glbVol in T0, T1. rewrite volOfLx_prodZ in T0, T1.
  assert (Q : forall l, lsum (fun x => lsum (fun p => re_tr (plaquette (glbSize g) U x (fst p) (snd p)) / 3)%R l) (all_coords (glbSize g))
    = (/ 3 * lsum (fun x => lsum (fun p => re_tr (plaquette (glbSize g) U x (fst p) (snd p))) l) (all_coords (glbSize g)))%R).
  { intros l. rewrite <- lsum_scal. apply lsum_ext. intros x _. rewrite <- lsum_scal. apply lsum_ext. intros p _. unfold Rdiv. apply Rmult_comm. }
  rewrite !Q, T0, T1. cbn [length time_planes space_planes]. 
  change (filter (fun q => Nat.eqb 0 (ts_of q)) all_planes) with time_planes. change (filter (fun q => Nat.eqb 1 (ts_of q)) all_planes) with space_planes.
  unfold NCOL. cbn [INR]. split; field; exact V.
Qed.
End G.
