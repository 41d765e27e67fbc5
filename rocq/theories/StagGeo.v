(** On one rank the tables of the neighbours of geometry_eo.cpp are those of a lattice. *)
From Verif Require Import Base GeometryModel GeometrySpec GeometryProofs OwnerProofs FullLxProofs
  FullLxMain LabelProofs NeighProofs GeoMiscModel GeoMiscProofs HaloModel HaloProofs EdgeProofs EoModel EoProofs EoProofs2 Geometry_final.
From Verif Require StagSpec.

(** loceo_neighup (up) or loceo_neighdw of the parity p, on the only rank *)
Definition table_of (g : grid) (up : bool) (p x mu : nat) : nat :=
  let rc := [0; 0; 0; 0] in let t := label_all_sites g rc in
  match loceo_neigh g rc t (set_eo_geometry g t) up mu (Z.of_nat p) (Z.of_nat x) with Some k => Z.to_nat k | None => 0%nat end.
Section One.
Context (g : grid) (Hv : valid_grid g = true) (Heo : eo_grid_ok g = true) (H1 : nRanksDir g = [1; 1; 1; 1]).
Lemma rc_in : in_box [0; 0; 0; 0] (nRanksDir g).
Proof. rewrite H1. repeat constructor; lia. Qed.
Lemma no_bord : bordVol g = 0.
Proof. unfold bordVol, bordVolh, bordDirVol, isDirParallel. rewrite H1. reflexivity. Qed.
Lemma one_step up p x mu : (p < 2)%nat -> (x < Z.to_nat (locVolh g))%nat -> (mu < 4)%nat ->
  exists y, table_of g up p x mu = y /\ (y < Z.to_nat (locVolh g))%nat /\ table_of g (negb up) (1 - p) y mu = x.
Proof.
  intros Hp Hx Hmu. pose proof (vols_nonneg g Hv) as (V0 & V1 & V2). pose proof (locVolh_dbl g Hv Heo) as Hd. pose proof no_bord as Hb. pose proof rc_in as Hrc.
  assert (Pp : Z.of_nat p = 0 \/ Z.of_nat p = 1) by lia.
  destruct (loc_onto g Hv Heo [0; 0; 0; 0] Hrc (Z.of_nat p) (Z.of_nat x) Pp ltac:(lia)) as (i & Hi & E1 & E2 & _).
  destruct (neigh_flip g Hv Heo [0; 0; 0; 0] Hrc i mu up ltac:(lia) Hmu) as (j & Ej & [[_ F]|(Hj & Ep & Ek)]); [lia|].
  destruct (proj2 (neighbours_main g [0; 0; 0; 0] Hv Hrc) i mu up Hi Hmu) as (j' & Ej' & Rj & Ei). rewrite Ej in Ej'. injection Ej' as <-.
  rewrite Hb, Z.add_0_r in Rj.
  destruct (neigh_flip g Hv Heo [0; 0; 0; 0] Hrc j mu (negb up) ltac:(lia) Hmu) as (i' & Ei' & [[_ F]|(Hi' & Ep' & Ek')]); [lia|].
  rewrite Ei in Ei'. injection Ei' as <-. rewrite E1, E2 in Ek. rewrite Ep, E2 in Ek'.
  exists (Z.to_nat (j / 2)). unfold table_of. rewrite Ek. split; [reflexivity|]. split; [lia|].
  replace (Z.of_nat (1 - p)) with (1 - Z.of_nat p) by lia. rewrite Z2Nat.id by lia. rewrite Ek', E1. lia.
Qed.
Lemma table_lattice : StagSpec.lattice (Z.to_nat (locVolh g)) (table_of g true) (table_of g false).
Proof.
  intros p x mu Hp Hx Hmu. destruct (one_step true p x mu Hp Hx Hmu) as (y & -> & Hy & E). destruct (one_step false p x mu Hp Hx Hmu) as (z & -> & Hz & F).
  repeat split; assumption.
Qed.
End One.
