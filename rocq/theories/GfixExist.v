(** Quality and functional are always computed. *)
From Coq Require Import Reals Lra.
From Coquelicot Require Import Complex.
From Verif Require Import Base GeometryModel GeometrySpec GeoMiscModel HaloModel HaloProofs ReduceModel ReduceSpec ReduceProofs StapleModel StapleProofs Prop_Staple
  CplxModel MatModel MatSpec GaugeModel GaugeSpec GaugeProofs FieldAlgEnds GfixModel GfixSpec GfixProofs GfixAlg GfixMain.
From Verif Require ParModel ParSpec.
Set Bullet Behavior "Strict Subproofs".
Open Scope Z_scope.

Section G.
Context (g : grid) (Hv : valid_grid g = true).
Context (surf_sched : Z -> list Z) (Hs : forall q, 0 <= q < nranks g -> forall i, In i (surf_sched q) <-> 0 <= i < locVol g).
Context (U : list Z -> nat -> cmat) (conf : Z -> @qfield cmat).
Context (Hc : holds g U conf).
Lemma reduce1_exists bk ix (v : Z -> Z -> R) : distinct_addresses ix (locVol g) 1 ->
  exists lo out, (forall r i, 0 <= i < locVol g -> lo r (ix i 0) = v r i) /\ field_reduce bk Rplus ix 1 (locVol g) (map lo (seqZ (nranks g))) out.
Proof using Hv.
  clear Hs Hc surf_sched U conf. intros Hix.
  set (pp := fun r a => match find (fun i => ix i 0 =? a) (seqZ (locVol g)) with Some i => v r i | None => 0%R end).
  assert (L : forall ranks, exists ms, Forall2 (fun m m' => reduce_loop bk Rplus ix 1 1 (locVol g) (locVol g) m m') ranks ms /\ length ms = length ranks).
  { induction ranks as [|m ranks (ms & F & Hl)]; [exists []; split; [constructor|reflexivity]|].
    destruct (loop_exists Rplus ix 1 1 (locVol g) bk (locVol g) m) as (m' & H). exists (m' :: ms). split; [now constructor|cbn; now rewrite Hl]. }
  destruct (L (map pp (seqZ (nranks g)))) as (ms & F & Hl).
  assert (Hms : ms <> []).
  { intros ->. cbn in Hl. rewrite map_length, seqZ_length in Hl. pose proof (prodZ_pos (nRanksDir g) (OwnerProofs.nRanks_pos g Hv)). rewrite <- OwnerProofs.nranks_prod in H. lia. }
  destruct (red_exists Rplus (map (fun m' : ParModel.mem R => m' (ix 0 0)) ms)) as [o0 O0]; [destruct ms; [congruence|discriminate]|].
  exists pp, (fun _ => o0). split.
  - intros r i Hi. unfold pp. destruct (find (fun j => ix j 0 =? ix i 0) (seqZ (locVol g))) as [j|] eqn:Ef.
    + apply find_some in Ef as [Hin E]. apply Z.eqb_eq in E. apply in_seqZ in Hin. destruct (Hix j 0 i 0) as [-> _]; [exact Hin|exact Hi|lia|lia|exact E|reflexivity].
    + exfalso. pose proof (find_none _ _ Ef i) as K. cbv beta in K. rewrite Z.eqb_refl in K. discriminate K. now apply in_seqZ.
  - exists ms. split; [exact F|]. intros d Hd. assert (d = 0) as -> by lia. exact O0.
Qed.
Lemma quality_exists bk ix s w : distinct_addresses ix (locVol g) 1 -> exists q, gauge_fixing_quality g surf_sched bk ix conf s w q.
Proof.
  intros Hix.
  set (confs := fun r => match option_map of_table (updateHalo g surf_sched (to_table conf) r) with Some c => c | None => fun _ _ => None end).
  assert (E1 : forall r, 0 <= r < nranks g -> option_map of_table (updateHalo g surf_sched (to_table conf) r) = Some (confs r)).
  { intros r Hr. destruct (halo_main g Hv surf_sched (to_table conf) Hs r Hr) as (d & Ed & _). unfold confs. rewrite Ed. reflexivity. }
  destruct (reduce1_exists bk ix (fun r i => match quality_site g r (confs r) s w i with Some v => v | None => 0%R end) Hix) as (lo & out & H1 & H2).
  eexists. exists confs, lo, out. split; [exact E1|]. split; [|split; [exact H2|reflexivity]].
  intros r i Hr Hi. rewrite H1 by exact Hi. destruct (gc_loc g Hv r Hr i Hi) as (x & Hx & _).
  rewrite (quality_site_ok g Hv U r Hr (confs r) (halo_conf g Hv surf_sched Hs U conf Hc r _ Hr (E1 r Hr)) i x Hi Hx). reflexivity.
Qed.
Lemma functional_exists bk ix s off : distinct_addresses ix (locVol g) 1 -> exists F, compute_functional g bk ix conf s off F.
Proof using Hv Hc.
  clear Hs surf_sched. intros Hix.
  destruct (reduce1_exists bk ix (fun r i => (match locF_site (conf r) s i with Some v => v | None => 0 end - match off with Some o => o r i | None => 0 end)%R) Hix) as (lo & out & H1 & H2).
  eexists. exists lo, out. split; [|split; [exact H2|reflexivity]].
  intros r i Hr Hi. destruct (gc_loc g Hv r Hr i Hi) as (x & Hx & _).
  rewrite (locF_ok g U conf Hc s r i x Hr Hi Hx) in *. eexists. split; [reflexivity|]. rewrite H1 by exact Hi. now rewrite (locF_ok g U conf Hc s r i x Hr Hi Hx).
Qed.
End G.
