(** The even-odd preconditioned solver: correctness of the routine *)
From Coq Require Import Reals Lra Lia List Arith Setoid ZArith FunctionalExtensionality.
From Coquelicot Require Import Complex.
From Verif Require Import MatSpec MatProofs MatProofs4 MatAlg DiracModel DiracSpec DiracProofs TmModel TmSpec TmProofs TmAlg TmAlg2 TmEo CgModel TmSolveModel TmSolveProofs TmSolveProofs2.
From Verif Require StagSpec StagAlg CgSpec CgAlg CgProofs CgStagModel CgStagProofs Prop_Cg.
Import ListNotations.
Open Scope C_scope.
Set Bullet Behavior "Strict Subproofs".

Section Native.
Variables (n : nat) (sched schedlx : nat -> list nat) (nupx ndwx : nat -> nat -> nat) (nup ndw : nat -> nat -> nat -> nat) (par eo : nat -> nat) (lx : nat -> nat -> nat).
Hypothesis Hs : forall l, StagSpec.order n (sched l).
Hypothesis Hsx : forall l, StagSpec.order (2 * n) (schedlx l).
Hypothesis L : StagSpec.lattice n nup ndw.
Hypothesis T : eo_tables n nupx ndwx nup ndw par eo lx.
Variables (kappa : R) (anis : option R).
Hypothesis Hk : kappa <> 0%R.

Section Alg.
Variable U : StagSpec.links.
Notation hop := (hop_eo nup ndw U anis).
Notation K := (Koo nup ndw U kappa anis).
Notation D := (tmD_eo nup ndw U kappa anis).
Notation rhs := (schur_rhs nup ndw U kappa anis).
Lemma solve mu se so (F : nat -> sfield) :
  F 0%nat =[n]= inv_diag kappa mu (sadd se (sscale (1 / 2)%R (hop 0 (F 1%nat)))) ->
  D mu 0 F =[n]= se /\ D mu 1 F =[n]= sadd so (sscale (-1)%R (g5 (sadd (g5 (rhs mu se so)) (sscale (-1)%R (K mu (F 1%nat)))))).
Proof.
  intros H. split.
  - unfold tmD_eo. change (1 - 0)%nat with 1%nat. rewrite H. intros x Hx s Hss c Hc. unfold sadd at 1. rewrite inv_diag_diag by assumption.
    unfold sadd, sscale. rewrite RtoC_opp. ring.
  - unfold tmD_eo. change (1 - 1)%nat with 0%nat.
    assert (E : inv_diag kappa mu (sadd se (sscale (1 / 2)%R (hop 0 (F 1%nat)))) =[n]= comb 1 (inv_diag kappa mu se) (1 / 2) (inv_diag kappa mu (hop 0 (F 1%nat)))).
    { intros x Hx s Hss c Hc. unfold comb, sadd, sscale. rewrite !inv_diag_spec by exact Hss. cbv zeta. ring. }
    assert (E' : hop 1 (F 0%nat) =[n]= comb 1 (hop 1 (inv_diag kappa mu se)) (1 / 2) (hop 1 (inv_diag kappa mu (hop 0 (F 1%nat))))).
    { rewrite <- (hop_comb n). apply (hop_ext n nup ndw L); [lia|]. rewrite H. exact E. }
    rewrite E'. intros x Hx s Hss c Hc. unfold schur_rhs, Koo, comb, sadd, sscale. rewrite !g5_at by exact Hss. rewrite !diag_spec by exact Hss.
    set (A := hop 1 (inv_diag kappa mu se) x s c). set (B := hop 1 (inv_diag kappa mu (hop 0 (F 1%nat))) x s c).
    destruct (F 1%nat x s c) as [f1 f2], A as [a1 a2], B as [b1 b2], (so x s c) as [s1 s2].
    destruct (Nat.ltb s 2); apply injective_projections; unfold Cminus, Copp, Cplus, Cmult, RtoC; cbn [fst snd]; field; exact Hk.
Qed.
End Alg.
Notation rhs U := (schur_rhs nup ndw U kappa anis).
(** the links only matter on the sites of the lattice *)
Lemma D_links U V mu p F : (p < 2)%nat -> (forall q k, (q < 2)%nat -> (k < n)%nat -> U q k = V q k) -> tmD_eo nup ndw U kappa anis mu p F =[n]= tmD_eo nup ndw V kappa anis mu p F.
Proof.
  intros Hp E x Hx s Hss c Hc. unfold tmD_eo, sadd, sscale. f_equal. f_equal. unfold hop_eo, hops. apply csum_ext. intros m Hm.
  destruct (L p x m Hp Hx Hm) as (_ & B & _). rewrite (E p x Hp Hx), (E (1 - p)%nat (ndw p x m)) by (lia || exact B). reflexivity.
Qed.
Lemma hop_links U V p F : (p < 2)%nat -> (forall q k, (q < 2)%nat -> (k < n)%nat -> U q k = V q k) -> hop_eo nup ndw U anis p F =[n]= hop_eo nup ndw V anis p F.
Proof.
  intros Hp E x Hx s Hss c Hc. unfold hop_eo, hops. apply csum_ext. intros m Hm.
  destruct (L p x m Hp Hx Hm) as (_ & B & _). rewrite (E p x Hp Hx), (E (1 - p)%nat (ndw p x m)) by (lia || exact B). reflexivity.
Qed.

(** ** pieces of the routine *)
Lemma prepare_ok l varphi U eq8a source_odd m : varphi <> eq8a -> varphi <> source_odd ->
  let m' := inv_tmD_cg_eoprec_prepare_source sched nup ndw l varphi U anis eq8a source_odd m in
  m' varphi =[n]= g5 (sadd (m source_odd) (sscale (1 / 2)%R (hop_eo nup ndw U anis 1 (m eq8a)))) /\ (forall a x, a <> varphi \/ (n <= x)%nat -> m' a x = m a x).
Proof.
  intros D1 D2. unfold inv_tmD_cg_eoprec_prepare_source. cbv zeta.
  set (m1 := tmn2Deo_or_tmn2Doe_eos sched l nup ndw 1 varphi U anis eq8a m).
  destruct (hop_eo_ok n sched Hs l nup ndw 1 varphi U anis eq8a D1 m) as [A1 B1]. fold m1 in A1, B1.
  match goal with |- context [PARs _ ?b m1] => set (body := b) end.
  destruct (pars n (sched (l + 1)%nat) body varphi (fun X m => g5 (sadd (m source_odd) (sscale (1 / 2)%R (m varphi))) X) (Hs _)) with (m := m1) as [A2 B2].
  - intros X m0 a x H. unfold body. cbn [fold_left seq]. unfold wr_color. repeat rewrite wr_other by exact H. reflexivity.
  - intros X _ m0 s Hss c Hc. unfold body. cbn [fold_left seq]. unfold wr_color.
    rewrite g5_at by exact Hss. unfold sadd, sscale.
    repeat (rewrite !wr_same || (rewrite (wr_other varphi X _ _ source_odd X) by auto)).
    unfold put. spins; cbn [Nat.eqb Nat.add Nat.ltb Nat.leb]; destruct (m0 source_odd X _ c) as [u v], (m0 varphi X _ c) as [u' v'];
      apply injective_projections; unfold Cminus, Copp, Cplus, Cmult, RtoC; cbn [fst snd]; lra.
  - intros X _ m0 m' H E s Hss c Hc. rewrite !g5_at by exact Hss. unfold sadd, sscale. rewrite E, H by auto. reflexivity.
  - split.
    + rewrite A2. apply g5_mor. apply sadd_mor; [|apply sscale_mor; exact A1]. intros x Hx s Hss c Hc. rewrite B1 by auto. reflexivity.
    + intros a x H. rewrite B2, B1 by exact H. reflexivity.
Qed.
Lemma reco_ok l varphi U sol_odd source_evn m : varphi <> sol_odd -> varphi <> source_evn ->
  let m' := inv_tmD_cg_eoprec_almost_reco_sol sched nup ndw l varphi U anis sol_odd source_evn m in
  m' varphi =[n]= sadd (m source_evn) (sscale (1 / 2)%R (hop_eo nup ndw U anis 0 (m sol_odd))) /\ (forall a x, a <> varphi \/ (n <= x)%nat -> m' a x = m a x).
Proof.
  intros D1 D2. unfold inv_tmD_cg_eoprec_almost_reco_sol. cbv zeta.
  set (m1 := tmn2Deo_or_tmn2Doe_eos sched l nup ndw 0 varphi U anis sol_odd m).
  destruct (hop_eo_ok n sched Hs l nup ndw 0 varphi U anis sol_odd D1 m) as [A1 B1]. fold m1 in A1, B1.
  match goal with |- context [PARs _ ?b m1] => set (body := b) end.
  destruct (pars n (sched (l + 1)%nat) body varphi (fun X m => sadd (m source_evn) (sscale (1 / 2)%R (m varphi)) X) (Hs _)) with (m := m1) as [A2 B2].
  - intros X m0 a x H. unfold body. cbn [fold_left seq]. unfold wr_color. repeat rewrite wr_other by exact H. reflexivity.
  - intros X _ m0 s Hss c Hc. unfold body. cbn [fold_left seq]. unfold wr_color. unfold sadd, sscale.
    repeat (rewrite !wr_same || (rewrite (wr_other varphi X _ _ source_evn X) by auto)).
    unfold put. spins; cbn [Nat.eqb Nat.add Nat.ltb Nat.leb]; destruct (m0 source_evn X _ c) as [u v], (m0 varphi X _ c) as [u' v'];
      apply injective_projections; unfold Cminus, Copp, Cplus, Cmult, RtoC; cbn [fst snd]; lra.
  - intros X _ m0 m' H E s Hss c Hc. unfold sadd, sscale. rewrite E, H by auto. reflexivity.
  - split.
    + rewrite A2. apply sadd_mor; [|apply sscale_mor; exact A1]. intros x Hx s Hss c Hc. rewrite B1 by auto. reflexivity.
    + intros a x H. rewrite B2, B1 by exact H. reflexivity.
Qed.

(** ** the routine *)
Variables (vin vout temp1 temp2 : nat).
Hypothesis ND : NoDup [vout; temp1; temp2; vin].
Variables (source_evn source_odd sol_evn sol_odd evnTemp oddTemp varphi : nat).
Hypothesis NDl : NoDup [source_evn; source_odd; sol_evn; sol_odd; evnTemp; oddTemp; varphi].
Variable junk_conf : nat -> nat -> nat -> su3.
Variables (solution_lx source_lx : nat).
Notation locals := [source_evn; source_odd; sol_evn; sol_odd; evnTemp; oddTemp; varphi].
Hypothesis N1 : ~ In source_lx locals.
Hypothesis N2 : ~ In solution_lx locals.
Variables (conf : nat -> nat -> su3) (mass : R) (niter : Z) (residue : R).
Notation native guess := (inv_tmD_cg_eoprec_native sched schedlx nup ndw n par eo lx vin vout temp1 temp2 source_evn source_odd sol_evn sol_odd evnTemp oddTemp varphi junk_conf
  solution_lx guess conf kappa anis mass niter residue source_lx).
Let Ueo : StagSpec.links := fun p k => conf (lx p k).
Let Us : StagSpec.links := split_lx_vector_into_eo_parts schedlx par eo 1 junk_conf conf.
Lemma Us_ok q k : (q < 2)%nat -> (k < n)%nat -> Us q k = Ueo q k.
Proof. intros Hq Hkn. unfold Us, split_lx_vector_into_eo_parts, Ueo. apply (split_ok n nupx ndwx nup ndw par eo lx T); auto. Qed.
Definition before (m : smem) : smem :=
  let s := split_lx_vector_into_eo_parts schedlx par eo 0 (fun p => m (if Nat.eqb p 0 then source_evn else source_odd)) (m source_lx) in
  let m := set_obj (set_obj m source_evn (s 0%nat)) source_odd (s 1%nat) in
  let m := inv_tmDee_or_oo_eos sched 20 evnTemp kappa mass source_evn m in
  inv_tmD_cg_eoprec_prepare_source sched nup ndw 21 varphi Us anis evnTemp source_odd m.
Ltac dis := repeat match goal with H : NoDup (_ :: _) |- _ => apply NoDup_cons_iff in H; destruct H end; cbn [In] in *; intuition congruence.
Lemma before_ok m :
  before m varphi =[n]= g5 (rhs Us mass (eo_field lx (m source_lx) 0%nat) (eo_field lx (m source_lx) 1%nat)) /\
  before m source_evn =[n]= eo_field lx (m source_lx) 0%nat /\
  (forall a x, ~ In a locals -> before m a x = m a x).
Proof.
  unfold before. cbv zeta. set (s := split_lx_vector_into_eo_parts schedlx par eo 0 _ (m source_lx)).
  set (m0 := set_obj (set_obj m source_evn (s 0%nat)) source_odd (s 1%nat)).
  set (m1 := inv_tmDee_or_oo_eos sched 20 evnTemp kappa mass source_evn m0).
  assert (S : forall p k, (p < 2)%nat -> (k < n)%nat -> s p k = eo_field lx (m source_lx) p k).
  { intros p k Hp Hkn. unfold s, split_lx_vector_into_eo_parts, eo_field. apply (split_ok n nupx ndwx nup ndw par eo lx T); auto. }
  assert (E0 : m0 source_evn = s 0%nat) by (unfold m0; rewrite set_other by dis; apply set_same).
  assert (E1 : m0 source_odd = s 1%nat) by (unfold m0; apply set_same).
  destruct (inv_ok n sched Hs 20 evnTemp kappa mass source_evn ltac:(dis) m0) as [A1 B1]. fold m1 in A1, B1.
  destruct (prepare_ok 21 varphi Us evnTemp source_odd m1 ltac:(dis) ltac:(dis)) as [A2 B2].
  split; [|split].
  - rewrite A2. apply g5_mor. unfold schur_rhs. apply sadd_mor.
    + intros x Hx t Ht c Hc. rewrite B1 by (left; dis). rewrite E1, S by (lia || exact Hx). reflexivity.
    + apply sscale_mor. apply (hop_ext n nup ndw L); [lia|]. rewrite A1. apply inv_diag_mor. rewrite E0. intros x Hx t Ht c Hc. rewrite S by (lia || exact Hx). reflexivity.
  - intros x Hx t Ht c Hc. rewrite B2 by (left; dis). rewrite B1 by (left; dis). rewrite E0, S by (lia || exact Hx). reflexivity.
  - intros a x Ha. rewrite B2 by (left; cbn [In] in Ha; intuition). rewrite B1 by (left; cbn [In] in Ha; intuition). unfold m0. rewrite !set_other by (cbn [In] in Ha; intuition). reflexivity.
Qed.
Theorem native_sound guess m m' : (1 <= niter)%Z -> native guess m = Some m' ->
  let psi := m' solution_lx in let eta := m source_lx in
  let r := sadd (tmD nupx ndwx conf kappa anis mass psi) (sscale (-1)%R eta) in
  (forall k, (k < n)%nat -> forall s, (s < 4)%nat -> veq (tmD nupx ndwx conf kappa anis mass psi (lx 0%nat k) s) (eta (lx 0%nat k) s)) /\
  (norm2 (2 * n) r < residue * norm2 n (rhs Ueo mass (eo_field lx eta 0%nat) (eo_field lx eta 1%nat)))%R /\
  (forall a, a <> solution_lx -> ~ In a locals -> m' a = m a) /\ (forall x, (2 * n <= x)%nat -> m' solution_lx x = m solution_lx x).
Proof.
  intros Hn. unfold inv_tmD_cg_eoprec_native. cbv zeta. fold Us. fold (before m). unfold inv_tmDkern_eoprec_square_eos_cg.
  destruct (before_ok m) as (Bv & Bs & Bo). set (m2 := before m) in *. clearbody m2.
  destruct (cg_invert _ _ _ _ _ _) as [y|] eqn:ECG; [|discriminate]. intros [= <-].
  apply Prop_Cg.C75_solution in ECG; [|apply (app_linear n sched Hs nup ndw L); exact ND|exact Hn].
  set (m3 := set_obj m2 oddTemp (of_rs y)).
  set (m4 := tmDkern_eoprec_eos sched nup ndw Us 23 sol_odd sol_evn kappa anis (- mass) oddTemp m3).
  set (m5 := inv_tmD_cg_eoprec_almost_reco_sol sched nup ndw 28 evnTemp Us anis sol_odd source_evn m4).
  set (m6 := inv_tmDee_or_oo_eos sched 30 sol_evn kappa mass evnTemp m5).
  destruct (kern_ok n sched Hs nup ndw L Us kappa anis 23 sol_odd sol_evn (- mass) oddTemp m3 ltac:(dis) ltac:(dis) ltac:(dis)) as [A4 B4]. fold m4 in A4, B4.
  destruct (reco_ok 28 evnTemp Us sol_odd source_evn m4 ltac:(dis) ltac:(dis)) as [A5 B5]. fold m5 in A5, B5.
  destruct (inv_ok n sched Hs 30 sol_evn kappa mass evnTemp ltac:(dis) m5) as [A6 B6]. fold m6 in A6, B6.
  set (eta := m source_lx) in *. set (se := eo_field lx eta 0%nat) in *. set (so := eo_field lx eta 1%nat) in *.
  set (F := fun p : nat => m6 (if Nat.eqb p 0 then sol_evn else sol_odd)).
  assert (F1 : F 1%nat =[n]= m4 sol_odd).
  { intros x Hx s Hss c Hc. unfold F. cbn [Nat.eqb]. rewrite B6 by (left; dis). rewrite B5 by (left; dis). reflexivity. }
  assert (F0 : F 0%nat =[n]= inv_diag kappa mass (sadd se (sscale (1 / 2)%R (hop_eo nup ndw Us anis 0 (F 1%nat))))).
  { unfold F at 1. cbn [Nat.eqb]. rewrite A6. apply inv_diag_mor. rewrite A5. apply sadd_mor.
    - rewrite <- Bs. intros x Hx s Hss c Hc. rewrite B4 by (left; split; dis). unfold m3. rewrite set_other by dis. reflexivity.
    - apply sscale_mor. apply (hop_ext n nup ndw L); [lia|]. symmetry. exact F1. }
  destruct (solve Us mass se so F F0) as [S0 S1].
  destruct (paste_ok n nupx ndwx nup ndw par eo lx T sched 31 (m6 solution_lx) F Hs) as [P1 P2].
  set (psi := paste_eo_parts_into_lx_vector sched lx 31 (m6 solution_lx) F) in *.
  cbv zeta. rewrite set_same.
  (* D psi on each parity *)
  assert (DP : forall p, (p < 2)%nat -> (fun k => tmD nupx ndwx conf kappa anis mass psi (lx p k)) =[n]= tmD_eo nup ndw Us kappa anis mass p F).
  { intros p Hp. rewrite (D_lx_eo n nupx ndwx nup ndw par eo lx T conf kappa anis mass psi p Hp). fold Ueo.
    rewrite (D_links Ueo Us mass p (eo_field lx psi) Hp) by (intros; symmetry; apply Us_ok; assumption).
    assert (X : forall q, (q < 2)%nat -> eo_field lx psi q =[n]= F q) by (intros q Hq x Hx s Hss c Hc; unfold eo_field; rewrite P1 by assumption; reflexivity).
    unfold tmD_eo. apply sadd_mor; [apply diag_mor, X, Hp|]. apply sscale_mor. apply (hop_ext n nup ndw L); [exact Hp|]. apply X. lia. }
  split; [|split; [|split]].
  - intros k Hkn s Hss c Hc. etransitivity; [exact (DP 0%nat ltac:(lia) k Hkn s Hss c Hc)|]. exact (S0 k Hkn s Hss c Hc).
  - match goal with |- (norm2 _ ?r < _)%R => set (rr := r) end.
    unfold norm2. rewrite (sdot_parity n nupx ndwx nup ndw par eo lx T).
    assert (R0 : eo_field lx rr 0%nat =[n]= (fun _ _ _ => RtoC 0)).
    { intros k Hkn s Hss c Hc. unfold eo_field, rr, sadd, sscale. pose proof (DP 0%nat ltac:(lia) k Hkn s Hss c Hc) as E. cbv beta in E. rewrite E, (S0 k Hkn s Hss c Hc).
      change (se k s c + RtoC (-1) * se k s c = RtoC 0). rewrite RtoC_m1. ring. }
    assert (R1 : eo_field lx rr 1%nat =[n]= sscale (-1)%R (g5 (sadd (g5 (rhs Us mass se so)) (sscale (-1)%R (Koo nup ndw Us kappa anis mass (F 1%nat)))))).
    { intros k Hkn s Hss c Hc. unfold eo_field at 1, rr, sadd at 1, sscale at 1. pose proof (DP 1%nat ltac:(lia) k Hkn s Hss c Hc) as E. cbv beta in E. rewrite E, (S1 k Hkn s Hss c Hc).
      unfold sadd at 1. change (eta (lx 1%nat k) s c) with (so k s c). rewrite RtoC_m1. ring. }
    rewrite (sdot_ext n _ _ _ _ R0 R0), (sdot_ext n _ _ _ _ R1 R1), sdot_0, sdot_scal_r, sdot_scal_l, g5_norm, Cconj_R.
    unfold CgSpec.residual2, vnorm2 in ECG. rewrite rdot_sdot in ECG.
    assert (Er : CgSpec.veq (24 * n) (fun i => to_rs (m2 varphi) i - kern_applier sched nup ndw vin vout temp1 temp2 Us kappa anis mass m2 y i)%R
        (to_rs (sadd (g5 (rhs Us mass se so)) (sscale (-1)%R (Koo nup ndw Us kappa anis mass (F 1%nat)))))).
    { intros i Hi. rewrite (app_ok n sched Hs nup ndw L Us kappa anis mass vin vout temp1 temp2 ND m2 y i Hi).
      transitivity (to_rs (comb 1 (m2 varphi) (-1) (Koo nup ndw Us kappa anis mass (Koo nup ndw Us kappa anis (- mass) (of_rs y)))) i); [rewrite to_comb; ring|].
      apply (to_ext n); [|exact Hi]. unfold comb. apply sadd_mor.
      - rewrite Bv. intros x Hx s Hss c Hc. unfold sscale. ring.
      - apply sscale_mor. apply (K_ext n nup ndw L). rewrite F1, A4. unfold m3. rewrite set_same. reflexivity. }
    rewrite (CgAlg.rdot_ext (24 * n) _ _ _ _ Er Er), rdot_sdot in ECG.
    rewrite (sdot_ext n _ _ _ _ Bv Bv), g5_norm in ECG.
    assert (Erhs : rhs Us mass se so =[n]= rhs Ueo mass se so).
    { unfold schur_rhs. apply sadd_mor; [reflexivity|]. apply sscale_mor. apply hop_links; [lia|]. apply Us_ok. }
    rewrite (sdot_ext n _ _ _ _ Erhs Erhs) in ECG.
    match goal with |- Rlt (fst (Cplus _ (Cmult _ (Cmult _ ?z)))) _ => set (zz := z) in * end. unfold Cplus, Cmult, RtoC. cbn [fst snd]. clear -ECG. lra.
  - intros a Ha Hl. rewrite set_other by exact Ha. apply functional_extensionality. intros x. cbn [In] in Hl.
    rewrite B6 by (left; intuition). rewrite B5 by (left; intuition). rewrite B4 by (left; split; intuition). unfold m3. rewrite set_other by intuition. apply Bo. cbn [In]. exact Hl.
  - intros x Hx. rewrite P2 by exact Hx. cbn [In] in N2.
    rewrite B6 by (left; intuition). rewrite B5 by (left; intuition). rewrite B4 by (left; split; intuition). unfold m3. rewrite set_other by intuition. apply Bo. cbn [In]. exact N2.
Qed.
Theorem native_total m : mass <> 0%R -> (0 < residue)%R -> (Z.of_nat (24 * n) < niter)%Z ->
  norm2 n (rhs Ueo mass (eo_field lx (m source_lx) 0%nat) (eo_field lx (m source_lx) 1%nat)) <> 0%R ->
  exists m', native None m = Some m'.
Proof.
  intros Hm Hr Hn Hb. unfold inv_tmD_cg_eoprec_native. cbv zeta. fold Us. fold (before m). unfold inv_tmDkern_eoprec_square_eos_cg. cbn [option_map].
  destruct (before_ok m) as (Bv & _). set (m2 := before m) in *. clearbody m2.
  assert (V : vnorm2 (24 * n) (to_rs (m2 varphi)) <> 0%R).
  { unfold vnorm2. rewrite rdot_sdot, (sdot_ext n _ _ _ _ Bv Bv), g5_norm.
    assert (Erhs : forall se so, rhs Us mass se so =[n]= rhs Ueo mass se so).
    { intros se so. unfold schur_rhs. apply sadd_mor; [reflexivity|]. apply sscale_mor. apply hop_links; [lia|]. apply Us_ok. }
    rewrite (sdot_ext n _ _ _ _ (Erhs _ _) (Erhs _ _)). exact Hb. }
  destruct (Prop_Cg.C75_returns (24 * n) (kern_applier sched nup ndw vin vout temp1 temp2 Us kappa anis mass m2) niter residue (to_rs (m2 varphi)) None) as [y Ey].
  - apply (app_symmetric n sched Hs nup ndw L); exact ND.
  - apply (app_positive n sched Hs nup ndw L); assumption.
  - exact Hr.
  - exact V.
  - exact Hn.
  - intros E. apply V. destruct (app_linear n sched Hs nup ndw L Us kappa anis mass vin vout temp1 temp2 ND m2) as [_ LL].
    assert (Z : CgSpec.veq (24 * n) (to_rs (m2 varphi)) (fun _ => 0%R)).
    { intros i Hi. rewrite <- (E i Hi). cbv iota. transitivity (kern_applier sched nup ndw vin vout temp1 temp2 Us kappa anis mass m2 (fun i => 0 * 0 + 0 * 0)%R i).
      - f_equal. apply functional_extensionality. intros j. ring.
      - rewrite (LL 0%R 0%R (fun _ => 0%R) (fun _ => 0%R) i Hi). ring. }
    unfold vnorm2. rewrite (CgAlg.rdot_ext (24 * n) _ _ _ _ Z Z). apply CgAlg.rdot_zero_l. intros i _. reflexivity.
  - rewrite Ey. eexists. reflexivity.
Qed.
End Native.
