(** The plaquette is always computed. *)
From Coq Require Import Reals Lra.
From Coquelicot Require Import Complex.
From Verif Require Import Base GeometryModel GeometrySpec GeoMiscModel HaloModel HaloProofs ReduceModel ReduceSpec ReduceProofs StapleModel StapleProofs
  CplxModel MatModel MatSpec GaugeModel GaugeSpec GaugeProofs FieldAlgEnds.
From Verif Require ParModel ParSpec.
Open Scope Z_scope.

Section G.
Context (g : grid) (Hv : valid_grid g = true).
Context (surf_sched : Z -> list Z) (Hs : forall q, 0 <= q < nranks g -> forall i, In i (surf_sched q) <-> 0 <= i < locVol g).
Context (U : list Z -> nat -> cmat) (conf : Z -> @qfield cmat).
Context (Hc : forall q i x mu, 0 <= q < nranks g -> 0 <= i < locVol g -> gc g q i x -> (mu < 4)%nat -> conf q i mu = Some (U x mu)).
Lemma plaq_exists bk ix : distinct_addresses ix (locVol g) 2 -> exists tot, global_plaquette_lx_conf g surf_sched bk ix conf tot.
Proof.
  intros Hix.
  set (confs := fun r => match option_map of_table (updateHalo g surf_sched (to_table conf) r) with Some c => c | None => fun _ _ => None end).
  set (vals := fun r i => match point_plaquette_lx_conf g r (confs r) i with Some p => p | None => fun _ => 0%R end).
  set (pp := fun r a => match find (fun p => ix (fst p) (snd p) =? a) (list_prod (seqZ (locVol g)) [0; 1]) with Some p => vals r (fst p) (Z.to_nat (snd p)) | None => 0%R end).
  assert (E1 : forall r, 0 <= r < nranks g -> option_map of_table (updateHalo g surf_sched (to_table conf) r) = Some (confs r)).
  { intros r Hr. destruct (halo_main g Hv surf_sched (to_table conf) Hs r Hr) as (d & Ed & _). unfold confs. rewrite Ed. reflexivity. }
  assert (L : forall ranks, exists ms, Forall2 (fun m m' => reduce_loop bk Rplus ix 2 1 (locVol g) (locVol g) m m') ranks ms /\ length ms = length ranks).
  { induction ranks as [|m ranks (ms & F & Hl)]; [exists []; split; [constructor|reflexivity]|].
    destruct (loop_exists Rplus ix 2 1 (locVol g) bk (locVol g) m) as (m' & H). exists (m' :: ms). split; [now constructor|cbn; now rewrite Hl]. }
  destruct (L (map pp (seqZ (nranks g)))) as (ms & F & Hl).
  assert (Hms : ms <> []).
  { intros ->. cbn in Hl. rewrite map_length, seqZ_length in Hl. pose proof (prodZ_pos (nRanksDir g) (OwnerProofs.nRanks_pos g Hv)). rewrite <- OwnerProofs.nranks_prod in H. lia. }
  destruct (red_exists Rplus (map (fun m' : ParModel.mem R => m' (ix 0 0)) ms)) as [o0 O0]; [destruct ms; [congruence|discriminate]|].
  destruct (red_exists Rplus (map (fun m' : ParModel.mem R => m' (ix 0 1)) ms)) as [o1 O1]; [destruct ms; [congruence|discriminate]|].
  set (temp := fun d => if d =? 0 then o0 else o1).
  exists (fun ts => (temp (Z.of_nat ts) / (IZR (glbVol g) * INR NCOL * INR NCOL))%R), confs, pp, temp. split; [exact E1|]. split; [|split].
  - intros r i Hr Hi. destruct (gc_loc g Hv r Hr i Hi) as (x & Hx & _).
    destruct (point_ok g Hv U r (confs r) i x Hr (halo_conf g Hv surf_sched Hs U conf Hc r _ Hr (E1 r Hr)) Hi Hx all_planes (fun _ => 0%R)) as (p & Ep & _).
    { intros q Hq. cbn in Hq. intuition (subst; cbn; lia). }
    exists p. split; [exact Ep|]. intros ts Hts. unfold pp.
    destruct (find (fun p => ix (fst p) (snd p) =? ix i (Z.of_nat ts)) (list_prod (seqZ (locVol g)) [0; 1])) as [[j d]|] eqn:Ef.
    + apply find_some in Ef as [Hin E]. cbn [fst snd] in *. apply Z.eqb_eq in E. apply in_prod_iff in Hin as [Hj Hd]. apply in_seqZ in Hj.
      destruct (Hix j d i (Z.of_nat ts)) as [-> ->]; [lia|lia|cbn in Hd; lia|lia|exact E|]. rewrite Nat2Z.id. unfold vals.
      change (point_plaquette_lx_conf g r (confs r) i) with (fold_left (plaq_addend g r (confs r) i) all_planes (Some (fun _ => 0%R))). now rewrite Ep.
    + exfalso. pose proof (find_none _ _ Ef (i, Z.of_nat ts)) as K. cbn [fst snd] in K. rewrite Z.eqb_refl in K. discriminate K.
      apply in_prod_iff. split; [now apply in_seqZ|]. cbn. lia.
  - exists ms. split; [exact F|]. intros d Hd. assert (d = 0 \/ d = 1) as [-> | ->] by lia; [exact O0|exact O1].
  - reflexivity.
Qed.
End G.
