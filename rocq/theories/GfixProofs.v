(** Proofs about GfixModel: transformations, derivative, quality. *)
From Coq Require Import Reals Lra Permutation Morphisms.
From Coquelicot Require Import Coquelicot.
From Verif Require Import Base GeometryModel GeometrySpec GeometryProofs OwnerProofs GeoMiscModel HaloModel HaloProofs NeighProofs EoModel EoProofs EoProofs2 EoHalo Eo_final ReduceModel ReduceSpec ReduceMain StapleModel StapleSpec StapleProofs
  StapleMain Prop_Staple CplxModel MatModel MatSpec MatProofs MatProofs2 MatProofs3 MatProofs4 MatAlg IldgModel IldgProofs ChecksumSpec ChecksumMain GaugeModel GaugeSpec GaugeProofs GaugeAlg GaugeForce GfixModel GfixSpec.
From Verif Require ParModel ParSpec.
Set Bullet Behavior "Strict Subproofs".
Open Scope Z_scope.

Definition holds_m (g : grid) (Om : list Z -> cmat) (gm : Z -> mfield) : Prop :=
  forall q i x, 0 <= q < nranks g -> 0 <= i < locVol g -> glbCoordOfLoclx (rank_labels g q) i = Some x -> gm q i = Some (Om x).

Section G.
Context (g : grid) (Hv : valid_grid g = true).
Context (surf_sched : Z -> list Z) (Hs : forall q, 0 <= q < nranks g -> forall i, In i (surf_sched q) <-> 0 <= i < locVol g).
Context (ord : Z -> nat -> nat -> nat -> Z -> Z -> list Z) (Ho : any_order ord).

Lemma mhalo Om gm r : holds_m g Om gm -> 0 <= r < nranks g ->
  exists t, updateHalo g surf_sched (to_mtable gm) r = Some t /\
    (forall i x, 0 <= i < locVol g + bordVol g -> gc g r i x -> of_mtable t i = Some (Om x)) /\
    (forall i, 0 <= i < locVol g -> of_mtable t i = gm r i).
Proof.
  intros Hg Hr. pose proof (vols_nonneg g Hv) as (V0 & V1 & V2).
  destruct (halo_main g Hv surf_sched (to_mtable gm) Hs r Hr) as (d & Ed & K1 & K2). exists d. split; [exact Ed|]. unfold of_mtable. split; [|intros i Hi; now rewrite K1 by lia].
  intros i x Hi Hx. destruct (Z_lt_ge_dec i (locVol g)) as [H|H].
  - rewrite K1 by lia. unfold to_mtable. apply Hg; auto. lia.
  - destruct (K2 i ltac:(lia)) as (y & q & j & Ey & Gy & Hq & Hj & ->). unfold to_mtable.
    apply Hg; try assumption. unfold gc in Hx. rewrite Hx in Ey. injection Ey as ->.
    destruct (owner_site g Hv y q j) as (_ & _ & ?); [|exact Gy|assumption]. apply (gc_box g Hv r Hr i); [lia|exact Hx].
Qed.

Lemma transform_run Om gm U conf uout inplace r : holds_m g Om gm -> holds g U conf -> (inplace = true -> uout = conf) -> 0 <= r < nranks g ->
  exists u h, gauge_transform_conf g ord surf_sched uout gm (if inplace then None else Some conf) r = Some (u, h) /\
    (forall A x mu, 0 <= A < locVol g -> glbCoordOfLoclx (rank_labels g r) A = Some x -> (mu < 4)%nat ->
       exists v, u A mu = Some v /\ meq v (transformed (glbSize g) Om U x mu)) /\
    (forall i mu, ~ (0 <= i < locVol g) -> u i mu = uout r i mu) /\
    (forall i, 0 <= i < locVol g -> h i = gm r i).
Proof.
  intros Hg Hc Hin Hr. destruct (mhalo Om gm r Hg Hr) as (t & Et & T1 & T2). unfold gauge_transform_conf. rewrite Et.
  eexists _, _. split; [reflexivity|]. pose proof (vols_nonneg g Hv) as (V0 & V1 & V2).
  set (f := fun (i : Z) (mu : nat) (v : option cmat) => match nb g r i mu with
      | Some up => op2 su3_prod (of_mtable t i) (op2 su3_prod_dag (if inplace then v else conf r i mu) (of_mtable t up)) | None => v end).
  match goal with |- context [PAR ord r 20 0 0 0 _ ?b _] => set (b20 := b); destruct (par_sites ord Ho r 20 0 0 (locVol g) b20 f (uout r)) as [P1 P2] end.
  { intros i s mu Hmu. unfold b20, transform_site, f, dirs. cbn [fold_left]. destruct mu as [|[|[|[|]]]]; [| | | |clear -Hmu; lia];
    destruct inplace; cbn [option_map]; destruct (nb g r i 0), (nb g r i 1), (nb g r i 2), (nb g r i 3); unfold link_put; cbn [Nat.eqb]; rewrite ?Z.eqb_refl; cbn [andb]; reflexivity. }
  { intros i s j mu Hj. unfold b20, transform_site, dirs. cbn [fold_left].
    destruct (nb g r i 0), (nb g r i 1), (nb g r i 2), (nb g r i 3); rewrite ?put_else by (left; exact Hj); reflexivity. }
  split; [|split; [exact P2|exact T2]].
  intros A x mu HA Hx Hmu. rewrite P1 by assumption. unfold f.
  destruct (up_nb g Hv r Hr A mu HA Hmu) as (x1 & B & EB & HB & Hx1 & Bx & GB). assert (x1 = x) by (unfold gc in *; congruence). subst x1.
  rewrite EB. assert (Hh : 0 <= B < locVol g + bordVol g) by (clear -HB V0 V1 V2; unfold here, bordVol in *; lia).
  rewrite (T1 A x), (T1 B _ Hh GB); [|lia|exact Hx].
  assert (E : (if inplace then uout r A mu else conf r A mu) = Some (U x mu)).
  { pose proof (Hc r A x mu Hr HA Hx Hmu) as E. destruct inplace; [rewrite Hin by reflexivity; exact E|exact E]. }
  rewrite E. cbn [op2]. eexists. split; [reflexivity|]. rewrite su3_prod_ok, su3_prod_dag_ok. unfold transformed. now rewrite mmul_assoc.
Qed.

(** ** even and odd parts *)
Definition holds_meo (g : grid) (Om : list Z -> cmat) (gm : Z -> Z -> mfield) : Prop :=
  forall q p k i x, 0 <= q < nranks g -> p = 0 \/ p = 1 -> 0 <= k < locVolh g -> loclx_of_loceo (rank_eo g q) p k = Some i ->
    glbCoordOfLoclx (rank_labels g q) i = Some x -> gm q p k = Some (Om x).
Definition holds_qeo {T} (g : grid) (U : list Z -> nat -> T) (conf : Z -> Z -> Z -> nat -> option T) : Prop :=
  forall q p k i x mu, 0 <= q < nranks g -> p = 0 \/ p = 1 -> 0 <= k < locVolh g -> loclx_of_loceo (rank_eo g q) p k = Some i ->
    glbCoordOfLoclx (rank_labels g q) i = Some x -> (mu < 4)%nat -> conf q p k mu = Some (U x mu).
Context (Heo : eo_grid_ok g = true).
Lemma rc_in r : 0 <= r < nranks g -> in_box (coordOfRank g r) (nRanksDir g).
Proof using Hv. intros Hr. unfold coordOfRank. apply coordOfLx_in_box; [now apply nRanks_pos|now rewrite <- nranks_prod]. Qed.
Lemma mhalo_eo Om gm p r : holds_meo g Om gm -> p = 0 \/ p = 1 -> 0 <= r < nranks g ->
  exists t, updateHaloEo g surf_sched p (fun q => to_mtable (fun q => gm q p) q) r = Some t /\
    (forall k i x, 0 <= k < locVolh g + bordVolh g -> loclx_of_loceo (rank_eo g r) p k = Some i -> glbCoordOfLoclx (rank_labels g r) i = Some x -> of_mtable t k = Some (Om x)).
Proof.
  intros Hg Hp Hr. destruct (halo_eo_main g Hv Heo surf_sched p (fun q => to_mtable (fun q => gm q p) q) Hp Hs r Hr) as (d & Ed & K1 & K2).
  exists d. split; [exact Ed|]. intros k i x Hk Hi Hx. unfold of_mtable. destruct (Z_lt_ge_dec k (locVolh g)) as [H|H].
  - rewrite K1 by (clear -H; lia). unfold to_mtable. apply (Hg r p k i x); auto. clear -H Hk; lia.
  - destruct (K2 k) as (i1 & y & q & j & e & E1 & E2 & E3 & Hq & Hj & E4 & E5 & He & ->); [clear -H Hk; lia|]. unfold to_mtable.
    rewrite Hi in E1. injection E1 as <-. rewrite Hx in E2. injection E2 as <-.
    destruct (eo_bijection_main g (coordOfRank g q) Hv Heo (rc_in q Hq)) as [B _]. pose proof (vols_nonneg g Hv) as (V0 & V1 & V2).
    destruct (B j) as (z & p' & k' & Ez & _ & F1 & F2 & F3 & _); [clear -Hj V1 V2; lia|].
    unfold rank_eo, rank_labels in E4, E5. rewrite E4 in F1. injection F1 as <-. rewrite E5 in F2. injection F2 as <-.
    apply (Hg q p e j x); auto.
    destruct (owner_site g Hv x q j) as (_ & _ & ?); [|exact E3|assumption].
    destruct (site_coords g q j Hv Hq Hj) as (w & Ew & Bw & Gw). destruct (eo_bijection_main g (coordOfRank g r) Hv Heo (rc_in r Hr)) as (_ & B' & E1 & E2 & E3').
    destruct (B' p k Hp) as (i' & Hi' & Ei' & _); [clear -Hk He E3' V2; lia|]. unfold rank_eo, rank_labels in Hi. rewrite Ei' in Hi. injection Hi as ->.
    destruct (Z_lt_ge_dec i (locVol g + bordVol g)) as [Hlt|Hge]; [apply (gc_box g Hv r Hr i); [clear -Hlt Hi'; lia|exact Hx]|].
    exfalso. destruct (eo_bijection_main g (coordOfRank g r) Hv Heo (rc_in r Hr)) as (B3 & _). destruct (B3 i Hi') as (z3 & p3 & k3 & _ & _ & G1 & G2 & G3 & _ & _ & _ & G4 & _).
    destruct (B' p k Hp) as (i4 & _ & Ei4 & P4 & K4); [clear -Hk He E3' V2; lia|]. rewrite Ei' in Ei4. injection Ei4 as <-. rewrite G2 in K4. injection K4 as ->. clear -G4 Hge Hk. lia.
Qed.
Lemma transform_eo_run Om gm U conf uout inplace r : holds_meo g Om gm -> holds_qeo g U conf -> (inplace = true -> uout = conf) -> 0 <= r < nranks g ->
  exists u, gauge_transform_conf_eo g ord surf_sched uout gm (if inplace then None else Some conf) r = Some u /\
    (forall p k i x mu, p = 0 \/ p = 1 -> 0 <= k < locVolh g -> loclx_of_loceo (rank_eo g r) p k = Some i -> glbCoordOfLoclx (rank_labels g r) i = Some x -> (mu < 4)%nat ->
       exists v, u p k mu = Some v /\ meq v (transformed (glbSize g) Om U x mu)) /\
    (forall p i mu, ~ (0 <= i < locVolh g) -> u p i mu = uout r p i mu).
Proof.
  intros Hg Hc Hin Hr. destruct (mhalo_eo Om gm 0 r Hg (or_introl eq_refl) Hr) as (t0 & Et0 & T0). destruct (mhalo_eo Om gm 1 r Hg (or_intror eq_refl) Hr) as (t1 & Et1 & T1).
  unfold gauge_transform_conf_eo. rewrite Et0, Et1. set (gs := fun p : Z => if p =? 0 then of_mtable t0 else of_mtable t1).
  assert (T : forall p k i x, p = 0 \/ p = 1 -> 0 <= k < locVolh g + bordVolh g -> loclx_of_loceo (rank_eo g r) p k = Some i -> glbCoordOfLoclx (rank_labels g r) i = Some x -> gs p k = Some (Om x)).
  { intros p k i x [->| ->] Hk; [apply T0|apply T1]; exact Hk. }
  eexists. split; [reflexivity|]. pose proof (vols_nonneg g Hv) as (V0 & V1 & V2).
  assert (PS : forall p, let f := fun (i : Z) (mu : nat) (v : option cmat) => match loceo_neigh g (coordOfRank g r) (rank_labels g r) (rank_eo g r) true mu p i with
      | Some up => op2 su3_prod (gs p i) (op2 su3_prod_dag (if inplace then v else conf r p i mu) (gs (1 - p) up)) | None => v end in
    let F := PAR ord r 21 (Z.to_nat p) 0 0 (locVolh g) (transform_site_eo g r p (gs (1 - p)) (gs p) (option_map (fun u => u r p) (if inplace then None else Some conf))) (uout r p) in
    (forall i mu, 0 <= i < locVolh g -> (mu < 4)%nat -> F i mu = f i mu (uout r p i mu)) /\ (forall i mu, ~ (0 <= i < locVolh g) -> F i mu = uout r p i mu)).
  { intros p f F. apply (par_sites ord Ho r 21 (Z.to_nat p) 0 (locVolh g) _ f (uout r p)).
    - intros i s mu Hmu. unfold transform_site_eo, f, dirs. cbn [fold_left]. set (N := fun mu => loceo_neigh g (coordOfRank g r) (rank_labels g r) (rank_eo g r) true mu p i).
      change (loceo_neigh g (coordOfRank g r) (rank_labels g r) (rank_eo g r) true mu p i) with (N mu).
      change (loceo_neigh g (coordOfRank g r) (rank_labels g r) (rank_eo g r) true 0 p i) with (N 0%nat). change (loceo_neigh g (coordOfRank g r) (rank_labels g r) (rank_eo g r) true 1 p i) with (N 1%nat).
      change (loceo_neigh g (coordOfRank g r) (rank_labels g r) (rank_eo g r) true 2 p i) with (N 2%nat). change (loceo_neigh g (coordOfRank g r) (rank_labels g r) (rank_eo g r) true 3 p i) with (N 3%nat).
      clearbody N. destruct mu as [|[|[|[|]]]]; [| | | |clear -Hmu; lia];
      destruct inplace; cbn [option_map]; destruct (N 0%nat), (N 1%nat), (N 2%nat), (N 3%nat); unfold link_put; cbn [Nat.eqb]; rewrite ?Z.eqb_refl; cbn [andb]; reflexivity.
    - intros i s j mu Hj. unfold transform_site_eo, dirs. cbn [fold_left].
      repeat match goal with |- context [match loceo_neigh ?a ?b ?c ?d ?e ?f ?h ?k with _ => _ end] => destruct (loceo_neigh a b c d e f h k) end; rewrite ?put_else by (left; exact Hj); reflexivity. }
  split; [|intros p i mu Hi; now apply (PS p)].
  intros p k i x mu Hp Hk Hi Hx Hmu. rewrite (proj1 (PS p)) by assumption. cbv beta zeta.
  destruct (eo_bijection_main g (coordOfRank g r) Hv Heo (rc_in r Hr)) as (B1 & B2 & W1 & W2 & W3).
  destruct (B2 p k Hp) as (i' & Hi' & Ei' & Pi & Ki); [clear -Hk W2 W3 V1 V2; lia|]. assert (i' = i) by (unfold rank_eo, rank_labels in Hi; congruence). subst i'.
  assert (HA : 0 <= i < locVol g).
  { destruct (B1 i Hi') as (z & p3 & k3 & _ & _ & _ & G2 & _ & G4 & _). rewrite Ki in G2. injection G2 as <-. split; [clear -Hi'; lia|]. apply G4. clear -Hk; lia. }
  destruct (neigh_flip g Hv Heo _ (rc_in r Hr) i mu true) as (j & Ej & [[_ Hbad]|(Hj & Ep & Ek)]); [clear -HA V1; lia|exact Hmu|clear -Hbad HA; lia|].
  destruct (eo_of g Hv Heo _ (rc_in r Hr) i) as (F1 & F2 & F3); [unfold totVol; clear -HA V1 V2; lia|]. destruct (eo_of g Hv Heo _ (rc_in r Hr) j Hj) as (G1 & G2 & G3).
  rewrite Pi in F1. injection F1 as F1. rewrite Ki in F2. injection F2 as F2. rewrite <- F1, <- F2 in Ek. rewrite <- F1 in Ep. rewrite Ep in G3. unfold rank_eo, rank_labels in *. rewrite Ek.
  destruct (up_nb g Hv r Hr i mu HA Hmu) as (x1 & B & EB & HB & Hx1 & Bx & GB). assert (x1 = x) by (unfold gc, rank_labels in *; congruence). subst x1.
  assert (B = j) by (unfold nb, rank_labels in EB; congruence). subst B.
  assert (Hh : 0 <= j < locVol g + bordVol g) by (clear -HB V0 V1 V2; unfold here, bordVol in *; lia).
  assert (Hp' : 1 - p = 0 \/ 1 - p = 1) by (clear -Hp; lia).
  assert (Hk' : 0 <= j / 2 < locVolh g + bordVolh g).
  { split; [apply Z.div_pos; [clear -Hh|]; lia|apply Z.div_lt_upper_bound; clear -Hh W1 W2; lia]. }
  rewrite (T p k i x Hp) by (try assumption; clear -Hk W2 V1; lia). rewrite (T (1 - p) (j / 2) j _ Hp' Hk' G3 GB).
  assert (E : (if inplace then uout r p k mu else conf r p k mu) = Some (U x mu)).
  { pose proof (Hc r p k i x mu Hr Hp Hk Hi Hx Hmu) as E. destruct inplace; [rewrite Hin by reflexivity; exact E|exact E]. }
  rewrite E. cbn [op2]. eexists. split; [reflexivity|]. rewrite su3_prod_ok, su3_prod_dag_ok. unfold transformed. now rewrite mmul_assoc.
Qed.
End G.
