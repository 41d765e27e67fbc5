From Coq Require Import Reals Lra Lia List FunctionalExtensionality.
From Coquelicot Require Import Complex.
From Verif Require Import CplxModel CplxSpec CplxProofs CplxStores MatModel MatSpec MatProofs MatRun DiracModel DiracSpec DiracProofs SpinModel SpinSpec SpinProofs SpinProofs2 SpinProofs3 ParLoop.
Import ListNotations.
Open Scope C_scope.
Set Bullet Behavior "Strict Subproofs".

Section Opg.
Variables opg omg bg o : path.
Hypothesis N1 : opg <> omg.
Hypothesis B1 : forall mu, bg <> opg@[mu].
Hypothesis B2 : forall mu, bg <> omg@[mu].
Hypothesis O1 : forall mu i j, o <> opg@[mu]@[i]@[j].
Hypothesis O2 : forall mu i j, o <> omg@[mu]@[i]@[j].
Hypothesis O3 : forall i r, o <> bg@[i]@[r].
Let junk := DM (fun _ => O) (fun _ => RtoC 0).
Definition gp (mu : nat) : nat -> nat := pos (base_gamma junk (iGammaOfMu mu)).
Lemma gp_perm mu : (mu < 4)%nat -> perm4 (gp mu).
Proof.
  intros H. assert (I : (iGammaOfMu mu < 19)%nat) by (do 4 (destruct mu as [|mu]; [cbn; lia|]); lia).
  destruct (gamma_valid junk (iGammaOfMu mu) I) as [A B]. split; assumption.
Qed.
Definition opg_body (mu : nat) : mem -> mem :=
    (spinspin_put_to_id opg@[mu] o;;
    spinspin_put_to_id omg@[mu] o;;
    spinspin_dirac_summ_the_prod_double opg@[mu] bg@[iGammaOfMu mu] (gp mu) 1;;
    spinspin_dirac_summ_the_prod_double omg@[mu] bg@[iGammaOfMu mu] (gp mu) (-1)).
Lemma in_ss_at a b q : in_ss a q -> in_ss b q -> a = b.
Proof. intros (i & j & _ & _ & ->) (i' & j' & _ & _ & E). apply at2_inj in E. tauto. Qed.
Lemma opg_body_ok mu m : (mu < 4)%nat ->
  deq (ss (opg_body mu m) opg@[mu]) (dadd did (dm m bg@[iGammaOfMu mu] (gp mu))) /\
  deq (ss (opg_body mu m) omg@[mu]) (dsub did (dm m bg@[iGammaOfMu mu] (gp mu))) /\
  forall q, ~ in_ss opg@[mu] q -> ~ in_ss omg@[mu] q -> q <> o -> opg_body mu m q = m q.
Proof.
  intros Hmu. unfold opg_body. rewrite !then_run.
  destruct (spinspin_put_to_id_ok opg@[mu] o (O1 mu) m) as [A1 A2]. set (m1 := spinspin_put_to_id opg@[mu] o m) in *.
  destruct (spinspin_put_to_id_ok omg@[mu] o (O2 mu) m1) as [A3 A4]. set (m2 := spinspin_put_to_id omg@[mu] o m1) in *.
  assert (D1 : forall i, bg@[iGammaOfMu mu] <> opg@[mu]@[i]) by (intros i E; unfold at_ in E; injection E as _ E; exact (B1 mu E)).
  assert (D2 : forall i, bg@[iGammaOfMu mu] <> omg@[mu]@[i]) by (intros i E; unfold at_ in E; injection E as _ E; exact (B2 mu E)).
  destruct (spinspin_dirac_summ_the_prod_double_ok opg@[mu] bg@[iGammaOfMu mu] (gp mu) 1 (gp_perm mu Hmu) D1 m2) as [A5 A6]. set (m3 := spinspin_dirac_summ_the_prod_double _ _ _ 1 m2) in *.
  destruct (spinspin_dirac_summ_the_prod_double_ok omg@[mu] bg@[iGammaOfMu mu] (gp mu) (-1) (gp_perm mu Hmu) D2 m3) as [A7 A8]. set (m4 := spinspin_dirac_summ_the_prod_double _ _ _ _ m3) in *.
  assert (Nm : opg@[mu] <> omg@[mu]) by (unfold at_; congruence).
  assert (Dis : forall q, in_ss opg@[mu] q -> ~ in_ss omg@[mu] q) by (intros q H H'; apply Nm; apply (in_ss_at _ _ q); assumption).
  assert (Bg : forall r, ~ in_ss opg@[mu] bg@[iGammaOfMu mu]@[r] /\ ~ in_ss omg@[mu] bg@[iGammaOfMu mu]@[r]).
  { intros r. split; intros (i & j & _ & _ & E); unfold at_ in E; injection E as _ _ E; [apply (B1 mu)|apply (B2 mu)]; exact E. }
  assert (E2 : dm m2 bg@[iGammaOfMu mu] (gp mu) = dm m bg@[iGammaOfMu mu] (gp mu)).
  { unfold dm. f_equal. f_equal. apply functional_extensionality. intros r. rewrite A4, A2; try apply Bg; try apply O3; try reflexivity. }
  assert (E3 : dm m3 bg@[iGammaOfMu mu] (gp mu) = dm m bg@[iGammaOfMu mu] (gp mu)).
  { rewrite <- E2. unfold dm. f_equal. f_equal. apply functional_extensionality. intros r. apply A6; [apply Bg|tauto]. }
  split; [|split].
  - intros i j Hi Hj. assert (Q : in_ss opg@[mu] opg@[mu]@[i]@[j]) by (exists i, j; auto).
    unfold ss at 1. rewrite A8 by (auto; tauto). change (m3 opg@[mu]@[i]@[j]) with (ss m3 opg@[mu] i j). rewrite A5 by assumption. rewrite E2. unfold dadd, dscale.
    unfold ss. rewrite A4; [|apply Dis; exact Q|apply O1]. change (m1 opg@[mu]@[i]@[j]) with (ss m1 opg@[mu] i j). rewrite A1 by assumption. ring.
  - intros i j Hi Hj. rewrite A7 by assumption. rewrite E3. unfold dadd, dsub, dscale. assert (Q : in_ss omg@[mu] omg@[mu]@[i]@[j]) by (exists i, j; auto).
    unfold ss. rewrite A6; [|intros F; exact (Dis _ F Q)|tauto]. change (m2 omg@[mu]@[i]@[j]) with (ss m2 omg@[mu] i j). rewrite A3 by assumption. replace (RtoC (-1)) with (Copp (RtoC 1)) by (apply injective_projections; cbn; ring). ring.
  - intros q Q1 Q2 Q3. rewrite A8, A6, A4, A2 by (first [assumption|tauto|congruence]). reflexivity.
Qed.
Lemma init_opg_omg_ok m mu : (forall i r, (i < 19)%nat -> (r < 4)%nat -> m bg@[i]@[r] = entr (base_gamma junk i) r) -> (mu < 4)%nat ->
  deq (ss (init_opg_omg opg omg bg o m) opg@[mu]) (dadd did (G junk (iGammaOfMu mu))) /\
  deq (ss (init_opg_omg opg omg bg o m) omg@[mu]) (dsub did (G junk (iGammaOfMu mu))).
Proof.
  intros Hm Hmu.
  assert (Bg : forall nu i r, ~ in_ss opg@[nu] bg@[i]@[r] /\ ~ in_ss omg@[nu] bg@[i]@[r]).
  { intros nu i0 r. split; intros (i & j & _ & _ & E); unfold at_ in E; injection E as _ _ E; [apply (B1 nu)|apply (B2 nu)]; exact E. }
  destruct (par_loop opg_body (fun mu q => in_ss opg@[mu] q \/ in_ss omg@[mu] q) (eq o) opg_body (seq 0 NDIRAC)) with (m := m) as [H1 H2].
  - apply seq_NoDup.
  - reflexivity.
  - intros k Hk m' q Hq Ho. apply in_seq in Hk. apply opg_body_ok; [unfold NDIRAC in *; lia|tauto|tauto|congruence].
  - intros k k' q _ _ Hn [H|H] [H'|H']; pose proof (in_ss_at _ _ _ H H') as E; unfold at_ in E; congruence.
  - intros k q _ [(i & j & _ & _ & ->)|(i & j & _ & _ & ->)]; [apply O1|apply O2].
  - intros k m1 m2 q Hk Hq He. apply in_seq in Hk. unfold NDIRAC in Hk.
    assert (E : dm m1 bg@[iGammaOfMu k] (gp k) = dm m2 bg@[iGammaOfMu k] (gp k)).
    { unfold dm. f_equal. f_equal. apply functional_extensionality. intros r. apply He; [|apply O3]. intros k' _ _ [F|F]; apply Bg in F; exact F. }
    destruct (opg_body_ok k m1 ltac:(lia)) as (P1 & P2 & _). destruct (opg_body_ok k m2 ltac:(lia)) as (P3 & P4 & _). rewrite E in P1, P2.
    destruct Hq as [(i & j & Hi & Hj & ->)|(i & j & Hi & Hj & ->)].
    + change (ss (opg_body k m1) opg@[k] i j = ss (opg_body k m2) opg@[k] i j). rewrite P1, P3 by assumption. reflexivity.
    + change (ss (opg_body k m1) omg@[k] i j = ss (opg_body k m2) omg@[k] i j). rewrite P2, P4 by assumption. reflexivity.
  - assert (I : In mu (seq 0 NDIRAC)) by (apply in_seq; unfold NDIRAC; lia).
    assert (R : init_opg_omg opg omg bg o m = run_list opg_body (seq 0 NDIRAC) m) by reflexivity.
    assert (Gm : deq (dm m bg@[iGammaOfMu mu] (gp mu)) (G junk (iGammaOfMu mu))).
    { intros i j Hi Hj. unfold dm, den, G, gp. cbn [pos entr]. unfold den. destruct (Nat.eqb _ _); [|reflexivity]. apply Hm; [|exact Hi]. clear - Hmu. do 4 (destruct mu as [|mu]; [cbn; lia|]). lia. }
    destruct (opg_body_ok mu m Hmu) as (P1 & P2 & _). rewrite R. split; intros i j Hi Hj.
    + unfold ss at 1. rewrite (H1 mu) by (auto; left; exists i, j; auto). change (ss (opg_body mu m) opg@[mu] i j = dadd did (G junk (iGammaOfMu mu)) i j).
      rewrite P1 by assumption. unfold dadd. rewrite Gm by assumption. reflexivity.
    + unfold ss at 1. rewrite (H1 mu) by (auto; right; exists i, j; auto). change (ss (opg_body mu m) omg@[mu] i j = dsub did (G junk (iGammaOfMu mu)) i j).
      rewrite P2 by assumption. unfold dsub. rewrite Gm by assumption. reflexivity.
Qed.
End Opg.
