(** Hermiticity, positivity and covariance of the twisted mass operator *)
From Coq Require Import Reals Lra Lia List Arith Setoid.
From Coquelicot Require Import Complex.
From Verif Require Import MatSpec MatProofs MatProofs4 MatAlg DiracModel DiracSpec DiracProofs TmModel TmSpec TmProofs.
From Verif Require StagSpec.
From Verif Require Import StagProofs StagAlg StagAlg2 TmAlg.
Import ListNotations.
Open Scope C_scope.
Set Bullet Behavior "Strict Subproofs".
Notation sdot := TmSpec.sdot.

(** ** scalar product *)
Lemma sdot_add_r n f g h : sdot n f (sadd g h) = sdot n f g + sdot n f h.
Proof. rewrite !sdot_spdot, <- csum_plus. apply csum_ext. intros x _. apply spdot_add_r. Qed.
Lemma sdot_add_l n f g h : sdot n (sadd g h) f = sdot n g f + sdot n h f.
Proof. rewrite !sdot_spdot, <- csum_plus. apply csum_ext. intros x _. apply spdot_add_l. Qed.
Lemma sdot_scal_r n f a g : sdot n f (sscale a g) = a * sdot n f g.
Proof. rewrite !sdot_spdot, <- csum_scal_l. apply csum_ext. intros x _. apply spdot_scal_r. Qed.
Lemma sdot_scal_l n f a g : sdot n (sscale a g) f = Cconj a * sdot n g f.
Proof. rewrite !sdot_spdot, <- csum_scal_l. apply csum_ext. intros x _. apply spdot_scal_l. Qed.
Lemma spdot_sym u w : spdot u w = Cconj (spdot w u).
Proof. unfold spdot. rewrite csum_conj. apply csum_ext. intros s _. apply vdot_sym. Qed.
Lemma sdot_sym n f g : sdot n f g = Cconj (sdot n g f).
Proof. rewrite !sdot_spdot, csum_conj. apply csum_ext. intros x _. apply spdot_sym. Qed.
Lemma spdot_pos u : snd (spdot u u) = 0%R /\ (0 <= fst (spdot u u))%R.
Proof.
  unfold spdot. cbn [csum]. destruct (vdot_pos (u 0%nat)), (vdot_pos (u 1%nat)), (vdot_pos (u 2%nat)), (vdot_pos (u 3%nat)).
  unfold Cplus, RtoC. cbn [fst snd]. lra.
Qed.
Lemma sdot_pos n f : snd (sdot n f f) = 0%R /\ (0 <= fst (sdot n f f))%R.
Proof.
  rewrite sdot_spdot. induction n as [|k IH]; cbn [csum]; [cbn; lra|]. destruct IH, (spdot_pos (f k)). unfold Cplus. cbn [fst snd]. split; lra.
Qed.
Lemma spdot_zero u : fst (spdot u u) = 0%R -> forall s, (s < 4)%nat -> veq (u s) (fun _ => RtoC 0).
Proof.
  intros H. assert (V : forall s, (s < 4)%nat -> fst (vdot (u s) (u s)) = 0%R).
  { unfold spdot in H. cbn [csum] in H. unfold Cplus, RtoC in H. cbn [fst] in H.
    destruct (vdot_pos (u 0%nat)), (vdot_pos (u 1%nat)), (vdot_pos (u 2%nat)), (vdot_pos (u 3%nat)).
    intros s Hs. destruct s as [|[|[|[|]]]]; try lia; lra. }
  intros s Hs c Hc. specialize (V s Hs). unfold vdot in V. cbn [csum] in V. unfold Cplus, Cmult, Cconj, RtoC in V. cbn [fst snd] in V.
  destruct c as [|[|[|]]]; try lia; destruct (u s 0%nat), (u s 1%nat), (u s 2%nat); cbn [fst snd] in V; apply injective_projections; cbn [fst snd RtoC]; nra.
Qed.
Lemma sdot_zero n f : fst (sdot n f f) = 0%R -> f =[n]= (fun _ _ _ => RtoC 0).
Proof.
  rewrite sdot_spdot. induction n as [|k IH]; cbn [csum]; intros H x Hx; [lia|].
  pose proof (sdot_pos k f) as [_ P]. rewrite sdot_spdot in P. destruct (spdot_pos (f k)) as [_ Q]. unfold Cplus in H. cbn [fst] in H.
  destruct (Nat.eq_dec x k) as [->|]; [apply spdot_zero; lra|apply IH; [lra|lia]].
Qed.

(** ** linearity *)
Ltac pw := intros x Hx s Hs c Hc.
Lemma hops_add n nu nd a Uf Ub f g : hops nu nd a Uf Ub (sadd f g) =[n]= sadd (hops nu nd a Uf Ub f) (hops nu nd a Uf Ub g).
Proof.
  pw. unfold hops, sadd. rewrite <- csum_plus. apply csum_ext. intros mu _. unfold spin, mvec. cbn [csum]. ring.
Qed.
Lemma hops_scale n nu nd a Uf Ub b f : hops nu nd a Uf Ub (sscale b f) =[n]= sscale b (hops nu nd a Uf Ub f).
Proof.
  pw. unfold hops, sscale. rewrite <- csum_scal_l. apply csum_ext. intros mu _. unfold spin, mvec. cbn [csum]. ring.
Qed.
Lemma hops_ext n nu nd a Uf Ub f g : (forall x mu, (x < n)%nat -> (mu < 4)%nat -> (nu x mu < n)%nat /\ (nd x mu < n)%nat) -> f =[n]= g -> hops nu nd a Uf Ub f =[n]= hops nu nd a Uf Ub g.
Proof.
  intros L E. pw. unfold hops. apply csum_ext. intros mu Hmu. destruct (L x mu Hx Hmu) as [L1 L2]. f_equal. f_equal;
    (apply spin_ext; [intros ? ? ? ?; reflexivity|exact Hs| |exact Hc]; intros t Ht k Hk; apply mvec_ext; [intros ? ? _ _; reflexivity|apply E; assumption|exact Hk]).
Qed.
Lemma g5_add n f g : g5 (sadd f g) =[n]= sadd (g5 f) (g5 g).
Proof. pw. unfold sadd. rewrite !g5_at by exact Hs. destruct Nat.ltb; ring. Qed.
Lemma g5_scale n b f : g5 (sscale b f) =[n]= sscale b (g5 f).
Proof. pw. unfold sscale. rewrite !g5_at by exact Hs. destruct Nat.ltb; ring. Qed.
Lemma g5_g5 n f : g5 (g5 f) =[n]= f.
Proof. pw. rewrite !g5_at by exact Hs. destruct Nat.ltb; ring. Qed.
Lemma Copp_conj (z : C) : Cconj (- z) = - Cconj z. Proof. apply injective_projections; cbn; ring. Qed.
Lemma g5_herm n f g : sdot n f (g5 g) = sdot n (g5 f) g.
Proof.
  rewrite !sdot_spdot. apply csum_ext. intros x _. apply csum_ext. intros s Hs. apply csum_ext. intros c Hc. rewrite !g5_at by exact Hs. destruct Nat.ltb; rewrite ?Copp_conj; ring.
Qed.
Lemma g5_norm n f : sdot n (g5 f) (g5 f) = sdot n f f.
Proof. rewrite g5_herm. apply sdot_ext; [apply g5_g5|reflexivity]. Qed.
Lemma g5_diag_adj n k mu f g : sdot n f (g5 (diag k mu g)) = sdot n (g5 (diag k (- mu) f)) g.
Proof.
  rewrite !sdot_spdot. apply csum_ext. intros x _. apply csum_ext. intros s Hs. apply csum_ext. intros c Hc. rewrite !g5_at by exact Hs. rewrite !diag_spec by exact Hs.
  destruct Nat.ltb; rewrite ?Copp_conj, ?Cconj_mult; unfold Cconj; cbn [fst snd]; rewrite ?Ropp_involutive; ring.
Qed.
Lemma inv_diag_adj n k mu f g : sdot n f (inv_diag k mu g) = sdot n (inv_diag k (- mu) f) g.
Proof.
  rewrite !sdot_spdot. apply csum_ext. intros x _. apply csum_ext. intros s Hs. apply csum_ext. intros c Hc. rewrite !inv_diag_spec by exact Hs. cbv zeta.
  replace (1 / (2 * k) * (1 / (2 * k)) + - mu * - mu)%R with (1 / (2 * k) * (1 / (2 * k)) + mu * mu)%R by ring.
  destruct Nat.ltb; rewrite ?Cconj_mult; unfold Cconj; cbn [fst snd]; unfold Rdiv; rewrite ?Ropp_involutive, ?Ropp_mult_distr_l_reverse, ?Ropp_involutive; ring.
Qed.
Lemma g5_inv_diag n k mu f : g5 (inv_diag k mu f) =[n]= inv_diag k mu (g5 f).
Proof. pw. rewrite g5_at by exact Hs. rewrite !inv_diag_spec by exact Hs. cbv zeta. rewrite g5_at by exact Hs. destruct Nat.ltb; ring. Qed.

(** ** on the whole lattice *)
Section Lx.
Variables (n : nat) (nup ndw : nat -> nat -> nat) (L : lattice_lx n nup ndw) (U : nat -> nat -> cmat) (kappa : R) (anis : option R).
Notation Q := (tmQ nup ndw U kappa anis).
Notation D := (tmD nup ndw U kappa anis).
Lemma hop_lx_adj f g : sdot n f (g5 (hop_lx nup ndw U anis g)) = sdot n (g5 (hop_lx nup ndw U anis f)) g.
Proof.
  unfold hop_lx. apply hops_adj.
  - intros x mu Hx Hmu. destruct (L x mu Hx Hmu) as (A & B & C & E). repeat split; auto; rewrite ?C; reflexivity.
  - intros x mu Hx Hmu. destruct (L x mu Hx Hmu) as (A & B & C & E). auto.
Qed.
Lemma Q_split mu f : Q mu f =[n]= sadd (g5 (diag kappa mu f)) (sscale (-(1 / 2))%R (g5 (hop_lx nup ndw U anis f))).
Proof. unfold tmQ, tmD. rewrite g5_add. rewrite g5_scale. reflexivity. Qed.
Lemma Q_adj mu f g : sdot n f (Q mu g) = sdot n (Q (- mu) f) g.
Proof.
  rewrite (sdot_ext n f f _ _ (seq_refl n f) (Q_split mu g)), (sdot_ext n _ _ g g (Q_split (- mu) f) (seq_refl n g)).
  rewrite sdot_add_r, sdot_add_l, sdot_scal_r, sdot_scal_l, g5_diag_adj, hop_lx_adj, Cconj_R. reflexivity.
Qed.
Lemma Q_mu mu f : Q mu f =[n]= sadd (Q 0 f) (sscale (Ci * mu) f).
Proof.
  pw. unfold tmQ, tmD, sadd, sscale. rewrite !g5_at by exact Hs. rewrite !diag_spec by exact Hs. destruct (f x s c) as [u v].
  destruct Nat.ltb; apply injective_projections; unfold Cminus, Copp, Cplus, Cmult, RtoC, Ci; cbn [fst snd]; ring.
Qed.
Lemma Q_norm mu f : norm2 n (Q mu f) = (norm2 n (Q 0 f) + mu * mu * norm2 n f)%R.
Proof.
  unfold norm2. rewrite (sdot_ext n _ _ _ _ (Q_mu mu f) (Q_mu mu f)).
  rewrite sdot_add_r, !sdot_add_l, !sdot_scal_r, !sdot_scal_l.
  assert (E : sdot n f (Q 0 f) = sdot n (Q 0 f) f). { rewrite Q_adj. replace (- 0)%R with 0%R by ring. reflexivity. }
  rewrite E. destruct (sdot_pos n f) as [F1 F2]. destruct (sdot n (Q 0 f) f) as [a b], (sdot n f f) as [p q]. cbn [fst snd] in *. subst q.
  unfold Cplus, Cmult, Cconj, RtoC, Ci. cbn [fst snd]. ring.
Qed.
Lemma Q_inj mu f : mu <> 0%R -> Q mu f =[n]= (fun _ _ _ => RtoC 0) -> f =[n]= (fun _ _ _ => RtoC 0).
Proof.
  intros Hm H. apply sdot_zero. pose proof (Q_norm mu f) as E. unfold norm2 in E.
  assert (Z : fst (sdot n (Q mu f) (Q mu f)) = 0%R).
  { rewrite (sdot_ext n _ _ _ _ H H). rewrite sdot_spdot. rewrite (csum_ext n _ (fun _ => RtoC 0)), csum_zero; [reflexivity|]. intros x _. unfold spdot, vdot. cbn [csum]. rewrite Cconj_R. ring. }
  destruct (sdot_pos n f) as [_ F], (sdot_pos n (Q 0 f)) as [_ G]. assert (M : (0 < mu * mu)%R) by nra. nra.
Qed.
(** ** change of gauge *)
Lemma hop_gauge g f : (forall x, (x < n)%nat -> unitary (g x)) -> hop_lx nup ndw (gauged_lx nup g U) anis (gauged_s g f) =[n]= gauged_s g (hop_lx nup ndw U anis f).
Proof.
  intros Hg. pw. unfold hop_lx, hops, gauged_s, gauged_lx.
  assert (T : forall mu t, (mu < 4)%nat -> veq (mvec (mmul (g x) (mmul (U x mu) (dag (g (nup x mu))))) (mvec (g (nup x mu)) (f (nup x mu) t))) (mvec (g x) (mvec (U x mu) (f (nup x mu) t))) /\
    veq (mvec (dag (mmul (g (ndw x mu)) (mmul (U (ndw x mu) mu) (dag (g (nup (ndw x mu) mu)))))) (mvec (g (ndw x mu)) (f (ndw x mu) t))) (mvec (g x) (mvec (dag (U (ndw x mu) mu)) (f (ndw x mu) t)))).
  { intros mu t Hmu. destruct (L x mu Hx Hmu) as (Hu & Hd & _ & E). split; intros i Hi.
    - rewrite <- !mvec_mmul. apply mvec_ext; [|intros j _; reflexivity|exact Hi]. rewrite !mmul_assoc, unitary_l, mmul_1_r by (apply Hg; assumption). reflexivity.
    - rewrite E. rewrite <- !mvec_mmul. apply mvec_ext; [|intros j _; reflexivity|exact Hi].
      rewrite !dag_mul, dag_dag, !mmul_assoc, unitary_l, mmul_1_r by (apply Hg; assumption). reflexivity. }
  transitivity (csum 4 (fun mu => RtoC (factor anis mu) * (spin (dsub did (gam mu)) (fun t => mvec (g x) (mvec (U x mu) (f (nup x mu) t))) s c +
     spin (dadd did (gam mu)) (fun t => mvec (g x) (mvec (dag (U (ndw x mu) mu)) (f (ndw x mu) t))) s c))).
  - apply csum_ext. intros mu Hmu. apply (f_equal (Cmult _)). apply (f_equal2 Cplus); (apply spin_ext; [intros ? ? ? ?; reflexivity|exact Hs| |exact Hc]; intros t _; apply (T mu t Hmu)).
  - rewrite (csum_ext 4 _ (fun mu => mvec (g x) (fun c => RtoC (factor anis mu) * (spin (dsub did (gam mu)) (fun t => mvec (U x mu) (f (nup x mu) t)) s c +
       spin (dadd did (gam mu)) (fun t => mvec (dag (U (ndw x mu) mu)) (f (ndw x mu) t)) s c)) c)).
    + unfold mvec. cbn [csum]. ring.
    + intros mu _. rewrite !spin_col. unfold mvec. cbn [csum]. ring.
Qed.
Lemma diag_gauge mu g f : diag kappa mu (gauged_s g f) =[n]= gauged_s g (diag kappa mu f).
Proof.
  pw. rewrite diag_spec by exact Hs. unfold gauged_s. unfold mvec. cbn [csum]. rewrite !diag_spec by exact Hs. ring.
Qed.
Lemma Q_gauge mu g f : (forall x, (x < n)%nat -> unitary (g x)) -> tmQ nup ndw (gauged_lx nup g U) kappa anis mu (gauged_s g f) =[n]= gauged_s g (Q mu f).
Proof.
  intros Hg. pw. unfold tmQ. rewrite g5_at by exact Hs.
  assert (E : tmD nup ndw (gauged_lx nup g U) kappa anis mu (gauged_s g f) x s c = gauged_s g (D mu f) x s c).
  { unfold tmD. unfold sadd at 1, sscale at 1. rewrite (diag_gauge mu g f x Hx s Hs c Hc), (hop_gauge g f Hg x Hx s Hs c Hc). unfold gauged_s, sadd, sscale. unfold mvec. cbn [csum]. ring. }
  rewrite E. unfold gauged_s. unfold mvec. cbn [csum]. rewrite !g5_at by exact Hs. destruct Nat.ltb; ring.
Qed.
End Lx.
