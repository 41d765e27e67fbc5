(** The even-odd preconditioned solver *)
From Coq Require Import Reals Lra Lia List Arith Setoid ZArith.
From Coquelicot Require Import Complex.
From Verif Require Import MatSpec MatProofs MatProofs4 MatAlg DiracModel DiracSpec DiracProofs TmModel TmSpec TmProofs TmAlg TmAlg2 TmEo CgModel TmSolveModel.
From Verif Require StagSpec StagAlg CgSpec CgAlg CgProofs CgStagModel CgStagProofs Prop_Cg.
Import ListNotations.
Open Scope C_scope.
Set Bullet Behavior "Strict Subproofs".
Local Notation rveq := CgSpec.veq.

(** ** real numbers of a field *)
Definition flat (f : sfield) : StagSpec.cfield := fun y => f (y / 4)%nat (y mod 4)%nat.
Lemma d4 x k : (k < 4)%nat -> ((4 * x + k) / 4 = x /\ (4 * x + k) mod 4 = k)%nat.
Proof. intros H. split; [symmetry; apply (Nat.div_unique _ 4 x k); lia|symmetry; apply (Nat.mod_unique _ 4 x k); lia]. Qed.
Lemma flat_at f x s : (s < 4)%nat -> flat f (4 * x + s)%nat = f x s.
Proof. intros H. unfold flat. destruct (d4 x s H) as [-> ->]. reflexivity. Qed.
Lemma csum4 n h : csum (4 * n) h = csum n (fun x => csum 4 (fun s => h (4 * x + s)%nat)).
Proof.
  induction n; [reflexivity|]. replace (4 * S n)%nat with (S (S (S (S (4 * n)))))%nat by lia. cbn [csum] in *. rewrite IHn.
  rewrite Nat.add_0_r. replace (4 * n + 1)%nat with (S (4 * n)) by lia. replace (4 * n + 2)%nat with (S (S (4 * n))) by lia. replace (4 * n + 3)%nat with (S (S (S (4 * n)))) by lia. ring.
Qed.
Lemma sdot_flat n f g : StagSpec.sdot (4 * n) (flat f) (flat g) = sdot n f g.
Proof. unfold StagSpec.sdot. rewrite csum4. apply csum_ext. intros x _. apply csum_ext. intros s Hs. rewrite !flat_at by exact Hs. reflexivity. Qed.
Lemma rdot_sdot n f g : rdot (24 * n) (to_rs f) (to_rs g) = fst (sdot n f g).
Proof. replace (24 * n)%nat with (6 * (4 * n))%nat by lia. unfold to_rs. rewrite CgStagProofs.rdot_sdot, <- sdot_flat. reflexivity. Qed.
Lemma of_to n f : of_rs (to_rs f) =[n]= f.
Proof. intros x _ s Hs c Hc. unfold of_rs, to_rs. rewrite CgStagProofs.of_to by exact Hc. change (flat f (4 * x + s)%nat c = f x s c). rewrite flat_at by exact Hs. reflexivity. Qed.
Lemma to_of v d : to_rs (of_rs v) d = v d.
Proof.
  rewrite <- (CgStagProofs.to_of v d). unfold to_rs, of_rs, CgStagModel.to_r.
  set (y := (d / 6)%nat). replace (4 * (y / 4) + y mod 4)%nat with y by (apply Nat.div_mod; lia). reflexivity.
Qed.
Lemma to_ext n f g : f =[n]= g -> rveq (24 * n) (to_rs f) (to_rs g).
Proof.
  intros H. replace (24 * n)%nat with (6 * (4 * n))%nat by lia. apply CgStagProofs.to_r_ext. intros y Hy c Hc. apply H; [|apply Nat.mod_upper_bound; lia|exact Hc].
  apply Nat.div_lt_upper_bound; lia.
Qed.
Lemma of_ext n u v : rveq (24 * n) u v -> of_rs u =[n]= of_rs v.
Proof.
  replace (24 * n)%nat with (6 * (4 * n))%nat by lia. intros H x Hx s Hs c Hc. unfold of_rs. apply (CgStagProofs.of_r_ext (4 * n) u v H); [lia|exact Hc].
Qed.
Definition comb (a : R) (f : sfield) (b : R) (g : sfield) : sfield := sadd (sscale a f) (sscale b g).
Lemma to_comb a f b g d : to_rs (comb a f b g) d = (a * to_rs f d + b * to_rs g d)%R.
Proof. unfold to_rs. rewrite <- CgStagProofs.to_r_comb. reflexivity. Qed.
Lemma of_comb n a u b v : of_rs (fun d => a * u d + b * v d)%R =[n]= comb a (of_rs u) b (of_rs v).
Proof. intros x _ s _ c _. unfold of_rs. rewrite CgStagProofs.of_r_comb. reflexivity. Qed.
Lemma set_same m a f : set_obj m a f a = f. Proof. unfold set_obj. rewrite Nat.eqb_refl. reflexivity. Qed.
Lemma set_other m a f b : b <> a -> set_obj m a f b = m b. Proof. intros H. unfold set_obj. destruct (Nat.eqb_spec b a); [contradiction|reflexivity]. Qed.

(** ** the operator given to cg_invert *)
Section Op.
Variables (n : nat) (sched : nat -> list nat).
Hypothesis Hs : forall l, StagSpec.order n (sched l).
Variables (nup ndw : nat -> nat -> nat -> nat).
Hypothesis L : StagSpec.lattice n nup ndw.
Variables (U : StagSpec.links) (kappa : R) (anis : option R) (mu : R).
Variables (vin vout temp1 temp2 : nat).
Hypothesis ND : NoDup [vout; temp1; temp2; vin].
Notation hop := (hop_eo nup ndw U anis).
Notation K := (Koo nup ndw U kappa anis).
Notation app := (kern_applier sched nup ndw vin vout temp1 temp2 U kappa anis mu).
Lemma app_ok m v : rveq (24 * n) (app m v) (to_rs (K mu (K (- mu) (of_rs v)))).
Proof.
  unfold kern_applier. apply to_ext. destruct (square_ok n sched Hs nup ndw L U kappa anis 0 vout temp1 temp2 mu vin (set_obj m vin (of_rs v)) ND) as [A _].
  rewrite A. rewrite set_same. reflexivity.
Qed.
Lemma hop_comb p a f b g : hop p (comb a f b g) =[n]= comb a (hop p f) b (hop p g).
Proof. unfold hop_eo, comb. rewrite hops_add, !hops_scale. reflexivity. Qed.
Lemma diag_comb k m a f b g : diag k m (comb a f b g) =[n]= comb a (diag k m f) b (diag k m g).
Proof. intros x Hx s Hss c Hc. unfold comb, sadd, sscale. rewrite !diag_spec by exact Hss. ring. Qed.
Lemma inv_comb k m a f b g : inv_diag k m (comb a f b g) =[n]= comb a (inv_diag k m f) b (inv_diag k m g).
Proof. intros x Hx s Hss c Hc. unfold comb, sadd, sscale. rewrite !inv_diag_spec by exact Hss. cbv zeta. ring. Qed.
Lemma g5_comb a f b g : g5 (comb a f b g) =[n]= comb a (g5 f) b (g5 g).
Proof. intros x Hx s Hss c Hc. unfold comb, sadd, sscale. rewrite !g5_at by exact Hss. destruct Nat.ltb; ring. Qed.
Lemma comb_ext a f f' b g g' : f =[n]= f' -> g =[n]= g' -> comb a f b g =[n]= comb a f' b g'.
Proof. intros H H0. unfold comb. rewrite H, H0. reflexivity. Qed.
Lemma K_comb m a f b g : K m (comb a f b g) =[n]= comb a (K m f) b (K m g).
Proof.
  unfold Koo. rewrite <- g5_comb. apply g5_mor.
  assert (E : hop 1 (inv_diag kappa m (hop 0 (comb a f b g))) =[n]= comb a (hop 1 (inv_diag kappa m (hop 0 f))) b (hop 1 (inv_diag kappa m (hop 0 g)))).
  { rewrite <- hop_comb. apply (hop_ext n nup ndw L); [lia|]. rewrite <- inv_comb. apply inv_diag_mor. apply hop_comb. }
  rewrite E, diag_comb. intros x Hx s Hss c Hc. unfold comb, sadd, sscale. ring.
Qed.
Lemma app_linear m : CgSpec.linear_op (24 * n) (app m).
Proof.
  split.
  - intros u v H i Hi. rewrite (app_ok m u i Hi), (app_ok m v i Hi). apply (to_ext n); [|exact Hi].
    apply (K_ext n nup ndw L), (K_ext n nup ndw L), of_ext, H.
  - intros a b u v i Hi. rewrite (app_ok m _ i Hi), (app_ok m u i Hi), (app_ok m v i Hi), <- to_comb. apply (to_ext n); [|exact Hi].
    rewrite <- K_comb. apply (K_ext n nup ndw L). rewrite <- K_comb. apply (K_ext n nup ndw L). apply of_comb.
Qed.
Lemma app_rdot_l m u v : rdot (24 * n) (app m u) v = fst (sdot n (K mu (K (- mu) (of_rs u))) (of_rs v)).
Proof.
  rewrite <- rdot_sdot. apply CgAlg.rdot_ext; [apply app_ok|]. intros i _. symmetry. apply to_of.
Qed.
Lemma app_rdot_r m u v : rdot (24 * n) u (app m v) = fst (sdot n (of_rs u) (K mu (K (- mu) (of_rs v)))).
Proof.
  rewrite <- rdot_sdot. apply CgAlg.rdot_ext; [|apply app_ok]. intros i _. symmetry. apply to_of.
Qed.
Lemma app_symmetric m : CgSpec.symmetric_op (24 * n) (app m).
Proof. intros u v. rewrite app_rdot_l, app_rdot_r. rewrite (KK_sym n nup ndw L). reflexivity. Qed.
Lemma app_positive m : mu <> 0%R -> kappa <> 0%R -> CgSpec.positive_op (24 * n) (app m).
Proof.
  intros Hm Hk u Hu. rewrite app_rdot_r, (KK_pos n nup ndw L). destruct (sdot_pos n (K (- mu) (of_rs u))) as [_ [P|P]]; [exact P|]. exfalso. apply Hu.
  symmetry in P. apply sdot_zero in P. apply (K_inj n nup ndw L) in P; [|lra|exact Hk].
  intros i Hi. rewrite <- (to_of u i). rewrite (to_ext n _ _ P i Hi). unfold to_rs, CgStagModel.to_r. destruct Nat.even; reflexivity.
Qed.
End Op.
