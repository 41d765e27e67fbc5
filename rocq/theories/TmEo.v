(** Even-odd preconditioning *)
From Coq Require Import Reals Lra Lia List Arith Setoid.
From Coquelicot Require Import Complex.
From Verif Require Import MatSpec MatProofs MatProofs4 MatAlg DiracModel DiracSpec DiracProofs TmModel TmSpec TmProofs TmAlg TmAlg2.
From Verif Require StagSpec.
Import ListNotations.
Open Scope C_scope.
Set Bullet Behavior "Strict Subproofs".

(** ** the routine *)
Section Kern.
Variables (n : nat) (sched : nat -> list nat).
Hypothesis Hs : forall l, StagSpec.order n (sched l).
Variables (nup ndw : nat -> nat -> nat -> nat).
Hypothesis L : StagSpec.lattice n nup ndw.
Variables (U : StagSpec.links) (kappa : R) (anis : option R).
Notation hop := (hop_eo nup ndw U anis).
Notation K := (Koo nup ndw U kappa anis).
Lemma in_range p : (p < 2)%nat -> forall x mu, (x < n)%nat -> (mu < 4)%nat -> (nup p x mu < n)%nat /\ (ndw p x mu < n)%nat.
Proof. intros Hp x mu Hx Hm. destruct (L p x mu Hp Hx Hm) as (? & ? & _). auto. Qed.
Lemma hop_ext p f g : (p < 2)%nat -> f =[n]= g -> hop p f =[n]= hop p g.
Proof. intros Hp E. apply hops_ext; [apply in_range; exact Hp|exact E]. Qed.
Lemma K_ext mu f g : f =[n]= g -> K mu f =[n]= K mu g.
Proof.
  intros E. unfold Koo. apply g5_mor. apply sadd_mor; [rewrite E; reflexivity|]. apply sscale_mor. apply hop_ext; [lia|]. apply inv_diag_mor. apply hop_ext; [lia|exact E].
Qed.
Lemma kern_ok l out temp mu inp m : out <> temp -> out <> inp -> temp <> inp ->
  let m' := tmDkern_eoprec_eos sched nup ndw U l out temp kappa anis mu inp m in
  m' out =[n]= K mu (m inp) /\ (forall a x, (a <> out /\ a <> temp) \/ (n <= x)%nat -> m' a x = m a x).
Proof.
  intros D1 D2 D3. unfold tmDkern_eoprec_eos. cbv zeta.
  set (m1 := tmn2Deo_or_tmn2Doe_eos sched l nup ndw 0 out U anis inp m).
  set (m2 := inv_tmDee_or_oo_eos sched (l + 1) temp kappa mu out m1).
  set (m3 := tmn2Deo_or_tmn2Doe_eos sched (l + 2) nup ndw 1 out U anis temp m2).
  set (m4 := tmDee_or_oo_eos sched (l + 3) temp kappa mu inp m3).
  destruct (hop_eo_ok n sched Hs l nup ndw 0 out U anis inp D2 m) as [A1 B1]. fold m1 in A1, B1.
  destruct (inv_ok n sched Hs (l + 1) temp kappa mu out ltac:(auto) m1) as [A2 B2]. fold m2 in A2, B2.
  destruct (hop_eo_ok n sched Hs (l + 2) nup ndw 1 out U anis temp D1 m2) as [A3 B3]. fold m3 in A3, B3.
  destruct (Dee_ok n sched Hs (l + 3) temp kappa mu inp D3 m3) as [A4 B4]. fold m4 in A4, B4.
  destruct (together_ok n sched Hs (l + 4) out temp D1 m4) as [A5 B5]. split.
  - rewrite A5. unfold Koo. apply g5_mor. apply sadd_mor.
    + rewrite A4. apply diag_mor. intros x Hx s Hss c Hc. rewrite B3, B2, B1 by auto. reflexivity.
    + apply sscale_mor. assert (E : m4 out =[n]= m3 out) by (intros x Hx s Hss c Hc; rewrite B4 by auto; reflexivity). rewrite E, A3.
      apply hop_ext; [lia|]. rewrite A2. apply inv_diag_mor. exact A1.
  - intros a x H. rewrite B5, B4, B3, B2, B1 by tauto. reflexivity.
Qed.
Lemma square_ok l out temp1 temp2 mu inp m : NoDup [out; temp1; temp2; inp] ->
  let m' := tmDkern_eoprec_square_eos sched nup ndw U l out temp1 temp2 kappa anis mu inp m in
  m' out =[n]= K mu (K (- mu) (m inp)) /\ (forall a x, (a <> out /\ a <> temp1 /\ a <> temp2) \/ (n <= x)%nat -> m' a x = m a x).
Proof.
  intros ND. repeat match goal with H : NoDup (_ :: _) |- _ => apply NoDup_cons_iff in H; destruct H end. cbn [In] in *.
  unfold tmDkern_eoprec_square_eos. cbv zeta.
  set (m1 := tmDkern_eoprec_eos sched nup ndw U l temp1 temp2 kappa anis (- mu) inp m).
  destruct (kern_ok l temp1 temp2 (- mu) inp m) as [A1 B1]; [intuition congruence..|]. fold m1 in A1, B1.
  destruct (kern_ok (l + 5) out temp2 mu temp1 m1) as [A2 B2]; [intuition congruence..|]. split.
  - rewrite A2. apply K_ext. exact A1.
  - intros a x H'. rewrite B2, B1 by tauto. reflexivity.
Qed.

(** ** hermiticity *)
Lemma hop_eo_adj p f g : (p < 2)%nat -> sdot n f (g5 (hop p g)) = sdot n (g5 (hop (1 - p)%nat f)) g.
Proof.
  intros Hp. unfold hop_eo. assert (Ep : (1 - (1 - p))%nat = p) by lia. apply hops_adj.
  - intros x mu Hx Hm. destruct (L p x mu Hp Hx Hm) as (A & B & C & E). rewrite Ep. repeat split; auto; rewrite C; reflexivity.
  - intros x mu Hx Hm. destruct (L (1 - p)%nat x mu ltac:(lia) Hx Hm) as (A & B & C & E). rewrite Ep in C, E. auto.
Qed.
Lemma hop_adj' p f g : (p < 2)%nat -> sdot n f (hop p g) = sdot n (g5 (hop (1 - p)%nat (g5 f))) g.
Proof. intros Hp. rewrite <- hop_eo_adj by exact Hp. rewrite g5_herm. apply sdot_ext; [symmetry; apply g5_g5|reflexivity]. Qed.
Lemma K_adj mu f g : sdot n f (K mu g) = sdot n (K (- mu) f) g.
Proof.
  unfold Koo. rewrite (sdot_ext n f f _ _ (seq_refl n f) (g5_add n _ _)), (sdot_ext n _ _ g g (g5_add n _ _) (seq_refl n g)).
  rewrite sdot_add_r, sdot_add_l, g5_diag_adj. f_equal.
  rewrite (sdot_ext n f f _ _ (seq_refl n f) (g5_scale n _ _)), (sdot_ext n _ _ g g (g5_scale n _ _) (seq_refl n g)).
  rewrite sdot_scal_r, sdot_scal_l, Cconj_R. f_equal. rewrite hop_eo_adj by lia. change (1 - 1)%nat with 0%nat. rewrite inv_diag_adj, hop_adj' by lia. change (1 - 0)%nat with 1%nat.
  apply sdot_ext; [|reflexivity]. apply g5_mor. apply hop_ext; [lia|]. rewrite g5_inv_diag. apply inv_diag_mor. apply g5_g5.
Qed.

(** ** D on the even and odd sites *)
Notation D := (tmD_eo nup ndw U kappa anis).
Definition sdot2 (f g : nat -> sfield) := sdot n (f 0%nat) (g 0%nat) + sdot n (f 1%nat) (g 1%nat).
Definition Q mu (f : nat -> sfield) : nat -> sfield := fun p => g5 (D mu p f).
Lemma Q2_adj mu f g : sdot2 f (Q mu g) = sdot2 (Q (- mu) f) g.
Proof.
  assert (E : forall mu p f, Q mu f p =[n]= sadd (g5 (diag kappa mu (f p))) (sscale (-(1 / 2))%R (g5 (hop p (f (1 - p)%nat)))))
    by (intros; unfold Q, tmD_eo; rewrite g5_add, g5_scale; reflexivity).
  unfold sdot2.
  rewrite (sdot_ext n (f 0%nat) (f 0%nat) _ _ (seq_refl n _) (E mu 0%nat g)), (sdot_ext n (f 1%nat) (f 1%nat) _ _ (seq_refl n _) (E mu 1%nat g)).
  rewrite (sdot_ext n _ _ (g 0%nat) (g 0%nat) (E (- mu)%R 0%nat f) (seq_refl n _)), (sdot_ext n _ _ (g 1%nat) (g 1%nat) (E (- mu)%R 1%nat f) (seq_refl n _)).
  rewrite !sdot_add_r, !sdot_add_l, !sdot_scal_r, !sdot_scal_l, !g5_diag_adj, !hop_eo_adj, Cconj_R by lia.
  change (1 - 1)%nat with 0%nat. change (1 - 0)%nat with 1%nat. ring.
Qed.
Lemma Q2_mu mu f p : Q mu f p =[n]= sadd (Q 0 f p) (sscale (Ci * mu) (f p)).
Proof.
  intros x Hx s Hss c Hc. unfold Q, tmD_eo, sadd, sscale. rewrite !g5_at by exact Hss. rewrite !diag_spec by exact Hss. destruct (f p x s c) as [u v].
  destruct Nat.ltb; apply injective_projections; unfold Cminus, Copp, Cplus, Cmult, RtoC, Ci; cbn [fst snd]; ring.
Qed.
Lemma sdot_0 : sdot n (fun _ _ _ => RtoC 0) (fun _ _ _ => RtoC 0) = RtoC 0.
Proof. rewrite sdot_spdot. rewrite (csum_ext n _ (fun _ => RtoC 0)), csum_zero; [reflexivity|]. intros x _. unfold spdot, StagAlg.vdot. cbn [csum]. rewrite Cconj_R. ring. Qed.
(** D has no kernel if the mass is not zero *)
Lemma D_inj mu f : mu <> 0%R -> (forall p, (p < 2)%nat -> D mu p f =[n]= (fun _ _ _ => RtoC 0)) -> forall p, (p < 2)%nat -> f p =[n]= (fun _ _ _ => RtoC 0).
Proof.
  intros Hm H.
  assert (Z : forall p, (p < 2)%nat -> Q mu f p =[n]= (fun _ _ _ => RtoC 0)).
  { intros p Hp. unfold Q. rewrite (H p Hp). intros x Hx s Hss c Hc. rewrite g5_at by exact Hss. destruct Nat.ltb; ring. }
  assert (E0 : sdot2 (Q mu f) (Q mu f) = RtoC 0).
  { unfold sdot2. rewrite (sdot_ext n _ _ _ _ (Z 0%nat ltac:(lia)) (Z 0%nat ltac:(lia))), (sdot_ext n _ _ _ _ (Z 1%nat ltac:(lia)) (Z 1%nat ltac:(lia))), !sdot_0. ring. }
  assert (E1 : sdot2 (Q mu f) (Q mu f) = sdot2 (Q 0 f) (Q 0 f) + RtoC (mu * mu) * sdot2 f f).
  { pose proof (Q2_adj 0 f f) as A. replace (- 0)%R with 0%R in A by ring. unfold sdot2 in *.
    rewrite (sdot_ext n _ _ _ _ (Q2_mu mu f 0%nat) (Q2_mu mu f 0%nat)), (sdot_ext n _ _ _ _ (Q2_mu mu f 1%nat) (Q2_mu mu f 1%nat)).
    rewrite !sdot_add_r, !sdot_add_l, !sdot_scal_r, !sdot_scal_l.
    set (a := sdot n (f 0%nat) (Q 0 f 0%nat)) in *. set (b := sdot n (f 1%nat) (Q 0 f 1%nat)) in *.
    assert (Ea : a = sdot n (Q 0 f 0%nat) (f 0%nat) + sdot n (Q 0 f 1%nat) (f 1%nat) - b) by (rewrite <- A; ring). rewrite Ea.
    rewrite Cconj_mult, Cconj_R, Ci_conj, RtoC_mult. ring [ii]. }
  rewrite E0 in E1. apply (f_equal fst) in E1. unfold sdot2 in E1.
  destruct (sdot_pos n (f 0%nat)) as [_ P0], (sdot_pos n (f 1%nat)) as [_ P1], (sdot_pos n (Q 0 f 0%nat)) as [_ R0], (sdot_pos n (Q 0 f 1%nat)) as [_ R1].
  unfold Cplus, Cmult, RtoC in E1. cbn [fst snd] in E1. assert (M : (0 < mu * mu)%R) by nra.
  set (u := fst (sdot n (f 0%nat) (f 0%nat))) in *. set (v := fst (sdot n (f 1%nat) (f 1%nat))) in *.
  assert (W : (mu * mu * (u + v) <= 0)%R) by lra. assert (u + v <= 0)%R by nra.
  intros p Hp. destruct p as [|[|]]; [..|lia]; apply sdot_zero; fold u v; lra.
Qed.
(** Schur complement: when the even part is the one that makes D vanish on the even sites, K is gamma5 D on the odd ones *)
Lemma K_schur mu f : kappa <> 0%R -> D mu 0 f =[n]= (fun _ _ _ => RtoC 0) -> g5 (D mu 1 f) =[n]= K mu (f 1%nat).
Proof.
  intros Hk H. unfold Koo, tmD_eo. change (1 - 1)%nat with 0%nat. apply g5_mor. apply sadd_mor; [reflexivity|].
  assert (E : f 0%nat =[n]= sscale (1 / 2)%R (inv_diag kappa mu (hop 0 (f 1%nat)))).
  { intros x Hx s Hss c Hc. pose proof (H x Hx s Hss c Hc) as E. unfold tmD_eo, sadd, sscale in E. change (1 - 0)%nat with 1%nat in E.
    rewrite <- (diag_inv_diag kappa mu (f 0%nat) x s c Hk Hss). unfold sscale. rewrite !inv_diag_spec by exact Hss. cbv zeta.
    replace (diag kappa mu (f 0%nat) x s c) with ((1 / 2)%R * hop 0 (f 1%nat) x s c); [ring|].
    replace ((1 / 2)%R * hop 0 (f 1%nat) x s c) with (diag kappa mu (f 0%nat) x s c + (- (1 / 2))%R * hop 0 (f 1%nat) x s c + (1 / 2)%R * hop 0 (f 1%nat) x s c)
      by (rewrite E; ring). rewrite RtoC_opp. ring. }
  rewrite (hop_ext 1 _ _ ltac:(lia) E). unfold hop_eo at 1. rewrite hops_scale. fold (hop 1 (inv_diag kappa mu (hop 0 (f 1%nat)))).
  intros x Hx s Hss c Hc. unfold sscale. rewrite Cmult_assoc, <- RtoC_mult. f_equal. f_equal. lra.
Qed.
Lemma K_inj mu f : mu <> 0%R -> kappa <> 0%R -> K mu f =[n]= (fun _ _ _ => RtoC 0) -> f =[n]= (fun _ _ _ => RtoC 0).
Proof.
  intros Hm Hk H. set (F := fun p : nat => match p with O => sscale (1 / 2)%R (inv_diag kappa mu (hop 0 f)) | _ => f end).
  assert (E : D mu 0 F =[n]= (fun _ _ _ => RtoC 0)).
  { intros x Hx s Hss c Hc. unfold tmD_eo, sadd, F. change (1 - 0)%nat with 1%nat. cbv iota. rewrite diag_spec by exact Hss. unfold sscale.
    pose proof (inv_diag_diag kappa mu (hop 0 f) x s c Hk Hss) as I. rewrite diag_spec in I by exact Hss.
    rewrite <- I, RtoC_opp. generalize (inv_diag kappa mu (hop 0 f) x s c). intros z. destruct Nat.ltb; ring. }
  apply (D_inj mu F Hm) with (p := 1%nat); [|lia]. intros p Hp. destruct p as [|[|]]; [exact E| |lia].
  pose proof (seq_trans n _ _ _ (K_schur mu F Hk E) H) as S. intros x Hx s Hss c Hc.
  pose proof (S x Hx s Hss c Hc) as T. rewrite g5_at in T by exact Hss. destruct Nat.ltb; [exact T|].
  apply (f_equal Copp) in T. transitivity (- - D mu 1 F x s c); [ring|]. rewrite T. ring.
Qed.
Lemma KK_sym mu f g : sdot n f (K mu (K (- mu) g)) = sdot n (K mu (K (- mu) f)) g.
Proof.
  rewrite K_adj. rewrite (K_adj (- mu)). replace (- - mu)%R with mu by ring. reflexivity.
Qed.
Lemma KK_pos mu f : sdot n f (K mu (K (- mu) f)) = sdot n (K (- mu) f) (K (- mu) f).
Proof. apply K_adj. Qed.
End Kern.
