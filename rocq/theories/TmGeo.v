(** On one rank the tables of geometry_lx.cpp and geometry_eo.cpp are those of a lattice, and the two numberings of the sites agree. *)
From Verif Require Import Base GeometryModel GeometrySpec GeometryProofs OwnerProofs FullLxProofs
  FullLxMain LabelProofs NeighProofs GeoMiscModel GeoMiscProofs HaloModel HaloProofs EdgeProofs EoModel EoProofs EoProofs2 Geometry_final StagGeo.
From Verif Require TmSpec.

Section Tables.
Context (g : grid).
Let rc := [0; 0; 0; 0].
Let t := label_all_sites g rc.
(** loclxNeighup (up) or loclxNeighdw, on the only rank *)
Definition lx_table_of (up : bool) (x mu : nat) : nat := match loclxNeigh g rc t up (Z.of_nat x) mu with Some k => Z.to_nat k | None => 0%nat end.
(** loclx_parity, loceo_of_loclx and loclx_of_loceo *)
Definition lx_parity (x : nat) : nat := match loclx_parity (set_eo_geometry g t) (Z.of_nat x) with Some k => Z.to_nat k | None => 0%nat end.
Definition eo_of_lx (x : nat) : nat := match loceo_of_loclx (set_eo_geometry g t) (Z.of_nat x) with Some k => Z.to_nat k | None => 0%nat end.
Definition lx_of_eo (p k : nat) : nat := match loclx_of_loceo (set_eo_geometry g t) (Z.of_nat p) (Z.of_nat k) with Some k => Z.to_nat k | None => 0%nat end.
End Tables.
Lemma rc_in1 g : nRanksDir g = [1; 1; 1; 1] -> in_box [0; 0; 0; 0] (nRanksDir g).
Proof. intros ->. repeat constructor; lia. Qed.
Lemma no_bord1 g : nRanksDir g = [1; 1; 1; 1] -> bordVol g = 0.
Proof. intros H1. unfold bordVol, bordVolh, bordDirVol, isDirParallel. rewrite H1. reflexivity. Qed.
Section One.
Context (g : grid) (Hv : valid_grid g = true) (H1 : nRanksDir g = [1; 1; 1; 1]).
Lemma lx_step up x mu : (x < Z.to_nat (locVol g))%nat -> (mu < 4)%nat ->
  (lx_table_of g up x mu < Z.to_nat (locVol g))%nat /\ lx_table_of g (negb up) (lx_table_of g up x mu) mu = x.
Proof.
  intros Hx Hmu. pose proof (vols_nonneg g Hv) as (V0 & V1 & V2).
  destruct (proj2 (neighbours_main g [0; 0; 0; 0] Hv (rc_in1 g H1)) (Z.of_nat x) mu up ltac:(lia) Hmu) as (j & Ej & Rj & Ei).
  rewrite (no_bord1 g H1), Z.add_0_r in Rj.
  assert (E : lx_table_of g up x mu = Z.to_nat j) by (unfold lx_table_of; rewrite Ej; reflexivity). rewrite E. split; [lia|].
  unfold lx_table_of. rewrite Z2Nat.id, Ei by lia. lia.
Qed.
Lemma lx_table_lattice : TmSpec.lattice_lx (Z.to_nat (locVol g)) (lx_table_of g true) (lx_table_of g false).
Proof.
  intros x mu Hx Hmu. destruct (lx_step true x mu Hx Hmu), (lx_step false x mu Hx Hmu). repeat split; assumption.
Qed.
Context (Heo : eo_grid_ok g = true).
Lemma tables_ok : TmSpec.eo_tables (Z.to_nat (locVolh g)) (lx_table_of g true) (lx_table_of g false) (table_of g true) (table_of g false) (lx_parity g) (eo_of_lx g) (lx_of_eo g).
Proof.
  pose proof (vols_nonneg g Hv) as (V0 & V1 & V2). pose proof (locVolh_dbl g Hv Heo) as Hd. pose proof (rc_in1 g H1) as Hrc.
  assert (B : forall p k, (p < 2)%nat -> (k < Z.to_nat (locVolh g))%nat -> exists i, 0 <= i < locVol g /\ i / 2 = Z.of_nat k /\ site_par g [0; 0; 0; 0] i = Z.of_nat p /\ lx_of_eo g p k = Z.to_nat i).
  { intros p k Hp Hk. destruct (loc_onto g Hv Heo [0; 0; 0; 0] Hrc (Z.of_nat p) (Z.of_nat k) ltac:(lia) ltac:(lia)) as (i & Hi & E1 & E2 & E3).
    exists i. repeat split; try lia. unfold lx_of_eo. rewrite E3. reflexivity. }
  split; [|split].
  - intros x Hx. assert (Hi : 0 <= Z.of_nat x < locVol g) by lia.
    destruct (eo_of g Hv Heo [0; 0; 0; 0] Hrc (Z.of_nat x) ltac:(unfold totVol; lia)) as (E1 & E2 & E3).
    pose proof (site_par_01 g Hv Heo [0; 0; 0; 0] (Z.of_nat x) Hrc ltac:(unfold totVol; lia)) as P.
    unfold lx_parity, eo_of_lx. rewrite E1, E2. split; [lia|]. split; [lia|]. unfold lx_of_eo. rewrite !Z2Nat.id by lia. rewrite E3. lia.
  - intros p k Hp Hk. destruct (B p k Hp Hk) as (i & Hi & E1 & E2 & ->). split; [lia|].
    destruct (eo_of g Hv Heo [0; 0; 0; 0] Hrc i ltac:(unfold totVol; lia)) as (F1 & F2 & F3).
    unfold lx_parity, eo_of_lx. rewrite !Z2Nat.id, F1, F2 by lia. split; lia.
  - intros p k mu Hp Hk Hmu.
    assert (N : forall up, lx_table_of g up (lx_of_eo g p k) mu = lx_of_eo g (1 - p) (table_of g up p k mu)).
    { intros up. destruct (B p k Hp Hk) as (i & Hi & E1 & E2 & ->).
      destruct (neigh_flip g Hv Heo [0; 0; 0; 0] Hrc i mu up ltac:(lia) Hmu) as (j & Ej & [[_ F]|(Hj & Ep & Ek)]); [lia|].
      rewrite E1, E2 in Ek. unfold table_of. rewrite Ek. unfold lx_table_of. rewrite Z2Nat.id, Ej by lia.
      destruct (eo_of g Hv Heo [0; 0; 0; 0] Hrc j Hj) as (F1 & F2 & F3). unfold lx_of_eo. rewrite Z2Nat.id by lia.
      replace (Z.of_nat (1 - p)) with (site_par g [0; 0; 0; 0] j) by lia. rewrite F3. reflexivity. }
    split; apply N.
Qed.
End One.
