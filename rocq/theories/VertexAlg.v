(** Algebra of the vertex of VertexSpec *)
From Coq Require Import Reals Lra Lia List Arith ZArith Setoid.
From Coquelicot Require Import Complex.
From Verif Require Import MatSpec MatAlg DiracModel DiracSpec DiracProofs TmModel TmSpec TmProofs.
From Verif Require StagSpec.
From Verif Require Import MatProofs MatProofs4 StagProofs StagAlg StagAlg2 TmAlg TmAlg2 VertexSpec.
Import ListNotations.
Open Scope C_scope.
Set Bullet Behavior "Strict Subproofs".
Notation sdot := TmSpec.sdot.

Section S.
Variables (n : nat) (nup ndw : nat -> nat -> nat) (U : nat -> nat -> cmat).
Hypothesis L : lattice_lx n nup ndw.

Lemma spin_smul G (M : cmat) (z : C) (v : nat -> cvec) s c : spin G (fun t => mvec M (fun c => z * v t c)) s c = z * spin G (fun t => mvec M (v t)) s c.
Proof. unfold spin, mvec. cbn [csum]. ring. Qed.
Lemma diag_smul kappa mu al f x s c : diag kappa mu (smul al f) x s c = al x * diag kappa mu f x s c.
Proof. unfold diag, sadd, sscale, g5, smul, spin. cbn [csum]. ring. Qed.
(** the vertex of a pure gauge is the commutator with the operator *)
Lemma ward kappa mass al f :
  vertex nup ndw U (RtoC (- (1 / 2))) (RtoC (1 / 2)) did (diffs nup al) f =[n]=
  sadd (tmD nup ndw U kappa None mass (smul al f)) (sscale (RtoC (-1)) (smul al (tmD nup ndw U kappa None mass f))).
Proof.
  intros x Hx s Hs c Hc. unfold tmD. set (P := diag kappa mass (smul al f)). set (Q := diag kappa mass f). set (H1 := hop_lx nup ndw U None (smul al f)). set (H2 := hop_lx nup ndw U None f).
  assert (E : P x s c = al x * Q x s c) by (apply diag_smul). unfold sadd, sscale, smul at 1. rewrite E. clear E. clearbody P Q. unfold H1, H2. clear H1 H2.
  unfold hop_lx, hops, factor, vertex, diffs.
  transitivity (csum 4 (fun mu => RtoC (-(1/2)) * ((al (nup x mu) - al x) * spin (dsub did (gam mu)) (fun t => mvec (U x mu) (f (nup x mu) t)) s c +
     (al (ndw x mu) - al x) * spin (dadd did (gam mu)) (fun t => mvec (dag (U (ndw x mu) mu)) (f (ndw x mu) t)) s c))).
  - apply csum_ext. intros mu Hmu. destruct (L x mu Hx Hmu) as (_ & _ & _ & ->). replace (RtoC (1 / 2)) with (Copp (RtoC (-(1/2)))) by (apply injective_projections; cbn; lra). ring.
  - unfold smul. rewrite (csum_ext 4 (fun mu => RtoC 1 * (spin (dsub did (gam mu)) (fun t => mvec (U x mu) (fun c => al (nup x mu) * f (nup x mu) t c)) s c + spin (dadd did (gam mu)) (fun t => mvec (dag (U (ndw x mu) mu)) (fun c => al (ndw x mu) * f (ndw x mu) t c)) s c))
      (fun mu => al (nup x mu) * spin (dsub did (gam mu)) (fun t => mvec (U x mu) (f (nup x mu) t)) s c + al (ndw x mu) * spin (dadd did (gam mu)) (fun t => mvec (dag (U (ndw x mu) mu)) (f (ndw x mu) t)) s c)).
    2: { intros mu _. rewrite !spin_smul. ring. }
    rewrite RtoC_m1. cbn [csum]. ring.
Qed.

(** ** adjoint *)
Definition lk (z : C) (M : cmat) : cmat := fun i j => z * M i j.
Lemma vertex_hops a b A f : vertex nup ndw U a b did A f =[n]=
  hops nup ndw (fun _ => 1%R) (fun x mu => lk (a * A x mu) (U x mu)) (fun x mu => lk (Cconj (b * A (ndw x mu) mu)) (U (ndw x mu) mu)) f.
Proof.
  intros x Hx s Hs c Hc. unfold vertex, hops. apply csum_ext. intros mu _. unfold spin, mvec, lk, dag. cbn [csum]. rewrite !Cconj_mult, !Cconj_conj. ring.
Qed.
Lemma vertex_adj a b A f g :
  sdot n f (g5 (vertex nup ndw U a b did A g)) = sdot n (g5 (vertex nup ndw U (Cconj b) (Cconj a) did (fun x mu => Cconj (A x mu)) f)) g.
Proof.
  rewrite (sdot_ext n f f (g5 (vertex nup ndw U a b did A g)) _ (seq_refl n f) (g5_mor_Proper n _ _ (vertex_hops a b A g))).
  rewrite (sdot_ext n (g5 (vertex nup ndw U (Cconj b) (Cconj a) did (fun x mu => Cconj (A x mu)) f)) _ g g (g5_mor_Proper n _ _ (vertex_hops (Cconj b) (Cconj a) (fun x mu => Cconj (A x mu)) f)) (seq_refl n g)).
  apply hops_adj.
  - intros x mu Hx Hmu. destruct (L x mu Hx Hmu) as (H1 & H2 & H3 & H4). rewrite H3. repeat split; try assumption.
    + rewrite !Cconj_mult, !Cconj_conj. reflexivity.
    + rewrite !Cconj_mult. reflexivity.
  - intros x mu Hx Hmu. destruct (L x mu Hx Hmu) as (H1 & H2 & H3 & H4). repeat split; assumption.
Qed.

(** ** change of gauge *)
Lemma vertex_gauge g a b G A f : (forall x, (x < n)%nat -> unitary (g x)) ->
  vertex nup ndw (gauged_lx nup g U) a b G A (gauged_s g f) =[n]= gauged_s g (vertex nup ndw U a b G A f).
Proof.
  intros Hg x Hx s Hs c Hc. unfold vertex, gauged_s, gauged_lx.
  assert (T : forall mu t, (mu < 4)%nat -> veq (mvec (mmul (g x) (mmul (U x mu) (dag (g (nup x mu))))) (mvec (g (nup x mu)) (f (nup x mu) t))) (mvec (g x) (mvec (U x mu) (f (nup x mu) t))) /\
    veq (mvec (dag (mmul (g (ndw x mu)) (mmul (U (ndw x mu) mu) (dag (g (nup (ndw x mu) mu)))))) (mvec (g (ndw x mu)) (f (ndw x mu) t))) (mvec (g x) (mvec (dag (U (ndw x mu) mu)) (f (ndw x mu) t)))).
  { intros mu t Hmu. destruct (L x mu Hx Hmu) as (Hu & Hd & _ & E). split; intros i Hi.
    - rewrite <- !mvec_mmul. apply mvec_ext; [|intros j _; reflexivity|exact Hi]. rewrite !mmul_assoc, unitary_l, mmul_1_r by (apply Hg; assumption). reflexivity.
    - rewrite E. rewrite <- !mvec_mmul. apply mvec_ext; [|intros j _; reflexivity|exact Hi].
      rewrite !dag_mul, dag_dag, !mmul_assoc, unitary_l, mmul_1_r by (apply Hg; assumption). reflexivity. }
  transitivity (csum 4 (fun mu => a * A x mu * spin (dsub G (gam mu)) (fun t => mvec (g x) (mvec (U x mu) (f (nup x mu) t))) s c +
     b * A (ndw x mu) mu * spin (dadd G (gam mu)) (fun t => mvec (g x) (mvec (dag (U (ndw x mu) mu)) (f (ndw x mu) t))) s c)).
  - apply csum_ext. intros mu Hmu. apply (f_equal2 Cplus); apply (f_equal (Cmult _)); (apply TmAlg.spin_ext; [intros ? ? ? ?; reflexivity|exact Hs| |exact Hc]; intros t _; apply (T mu t Hmu)).
  - rewrite (csum_ext 4 _ (fun mu => mvec (g x) (fun c => a * A x mu * spin (dsub G (gam mu)) (fun t => mvec (U x mu) (f (nup x mu) t)) s c +
       b * A (ndw x mu) mu * spin (dadd G (gam mu)) (fun t => mvec (dag (U (ndw x mu) mu)) (f (ndw x mu) t)) s c) c)).
    + unfold mvec. cbn [csum]. ring.
    + intros mu _. rewrite !spin_col. unfold mvec. cbn [csum]. ring.
Qed.

(** ** twist *)
Definition zT (r : nat) : zmat := zdscale (0, if Nat.eqb r 0 then 1 else -1)%Z (zG 5).
Lemma twisted_z r : deq (twisted r) (zin (zT r)).
Proof.
  intros i j Hi Hj. unfold zT. rewrite (zin_scale _ _ i j Hi Hj). unfold twisted, dscale. unfold gam5. rewrite <- (zG_ok zero_matr 5 ltac:(lia) i j Hi Hj). unfold G. f_equal.
  destruct (Nat.eqb r 0); apply injective_projections; cbn; ring.
Qed.
Lemma dsub_add (x y : dmat) : deq (dsub x y) (dadd x (dscale (inj (-1, 0)%Z) y)).
Proof. intros i j _ _. unfold dsub, dadd, dscale. replace (inj (-1, 0)%Z) with (Copp (RtoC 1)) by (apply injective_projections; cbn; lra). ring. Qed.
Lemma gam_z mu : (mu < 4)%nat -> deq (gam mu) (zin (zG (iGammaOfMu mu))).
Proof. intros H. apply zG_ok. destruct mu as [|[|[|[|]]]]; cbn; lia. Qed.
Lemma rot_z (e : Z) mu r : (mu < 4)%nat -> (r < 2)%nat -> e = 1%Z \/ e = (-1)%Z ->
  deq (dmul (dadd did (twisted r)) (dmul (dadd did (dscale (inj (e, 0)%Z) (gam mu))) (dadd did (twisted r)))) (dscale (inj (2, 0)%Z) (dadd (twisted r) (dscale (inj (e, 0)%Z) (gam mu)))).
Proof.
  intros Hmu Hr He. rewrite (gam_z mu Hmu), (twisted_z r), <- zin_id, <- !zin_scale, <- !zin_add, <- !zin_mul, <- !zin_scale. apply zdeqb_ok.
  destruct He as [-> | ->]; destruct r as [|[|]]; [..|lia| | |lia]; destruct mu as [|[|[|[|]]]]; try lia; vm_compute; reflexivity.
Qed.
Lemma rot_scale (x : dmat) r : deq (dmul (rotation r) (dmul x (rotation r))) (dscale (RtoC (1 / 2)) (dmul (dadd did (twisted r)) (dmul x (dadd did (twisted r))))).
Proof.
  intros i j _ _. unfold rotation, dmul, dscale. cbn [csum]. assert (E : RtoC (1 / 2) = RtoC (/ sqrt 2) * RtoC (/ sqrt 2)).
  { rewrite <- RtoC_mult. apply f_equal. rewrite <- Rinv_mult. rewrite sqrt_sqrt by lra. lra. }
  rewrite E. ring.
Qed.
Lemma rot_minus mu r : (mu < 4)%nat -> (r < 2)%nat -> deq (dmul (rotation r) (dmul (dsub did (gam mu)) (rotation r))) (dsub (twisted r) (gam mu)).
Proof.
  intros Hmu Hr. rewrite rot_scale, dsub_add, (rot_z (-1) mu r Hmu Hr ltac:(auto)), dsub_add. intros i j _ _. unfold dscale at 1 2. replace (inj (2, 0)%Z) with (RtoC 2) by reflexivity.
  rewrite Cmult_assoc. replace (RtoC (1 / 2) * RtoC 2) with (RtoC 1) by (apply injective_projections; cbn; lra). ring.
Qed.
Lemma dadd_one (x y : dmat) : deq (dadd x y) (dadd x (dscale (inj (1, 0)%Z) y)).
Proof. intros i j _ _. unfold dadd, dscale. replace (inj (1, 0)%Z) with (RtoC 1) by reflexivity. ring. Qed.
Lemma rot_plus mu r : (mu < 4)%nat -> (r < 2)%nat -> deq (dmul (rotation r) (dmul (dadd did (gam mu)) (rotation r))) (dadd (twisted r) (gam mu)).
Proof.
  intros Hmu Hr. rewrite rot_scale, (dadd_one did (gam mu)), (rot_z 1 mu r Hmu Hr ltac:(auto)), (dadd_one _ (gam mu)). intros i j _ _. unfold dscale at 1 2. replace (inj (2, 0)%Z) with (RtoC 2) by reflexivity.
  rewrite Cmult_assoc. replace (RtoC (1 / 2) * RtoC 2) with (RtoC 1) by (apply injective_projections; cbn; lra). ring.
Qed.
Lemma spin_rot G G' R (M : cmat) v s c : deq (dmul R (dmul G R)) G' -> (s < 4)%nat -> (c < 3)%nat -> spin R (fun s c => spin G (fun t => mvec M (spin R v t)) s c) s c = spin G' (fun t => mvec M (v t)) s c.
Proof.
  intros E Hs Hc. transitivity (spin (dmul R (dmul G R)) (fun t => mvec M (v t)) s c).
  - rewrite <- (spin_mul R (dmul G R)). unfold spin at 1 4. apply csum_ext. intros t _. f_equal. rewrite <- spin_mul. unfold spin at 1 3. apply csum_ext. intros t' _. f_equal. symmetry. apply spin_col.
  - apply TmAlg.spin_ext; [exact E|exact Hs|intros ? ? ? ?; reflexivity|exact Hc].
Qed.
Lemma vertex_twist a b A r f : (r < 2)%nat -> vertex nup ndw U a b (twisted r) A f =[n]= sspin (rotation r) (vertex nup ndw U a b did A (sspin (rotation r) f)).
Proof.
  intros Hr x Hx s Hs c Hc. unfold sspin, vertex.
  transitivity (csum 4 (fun mu => a * A x mu * spin (rotation r) (fun s c => spin (dsub did (gam mu)) (fun t => mvec (U x mu) (spin (rotation r) (f (nup x mu)) t)) s c) s c +
    b * A (ndw x mu) mu * spin (rotation r) (fun s c => spin (dadd did (gam mu)) (fun t => mvec (dag (U (ndw x mu) mu)) (spin (rotation r) (f (ndw x mu)) t)) s c) s c)).
  - apply csum_ext. intros mu Hmu. rewrite (spin_rot _ _ (rotation r) _ _ s c (rot_minus mu r Hmu Hr) Hs Hc), (spin_rot _ _ (rotation r) _ _ s c (rot_plus mu r Hmu Hr) Hs Hc). reflexivity.
  - set (P := fun mu s c => spin (dsub did (gam mu)) (fun t => mvec (U x mu) (spin (rotation r) (f (nup x mu)) t)) s c).
    set (Q := fun mu s c => spin (dadd did (gam mu)) (fun t => mvec (dag (U (ndw x mu) mu)) (spin (rotation r) (f (ndw x mu)) t)) s c).
    change (csum 4 (fun mu => a * A x mu * spin (rotation r) (P mu) s c + b * A (ndw x mu) mu * spin (rotation r) (Q mu) s c) = spin (rotation r) (fun s c => csum 4 (fun mu => a * A x mu * P mu s c + b * A (ndw x mu) mu * Q mu s c)) s c).
    clearbody P Q. unfold spin. cbn [csum]. ring.
Qed.
End S.
