From Coq Require Import Reals Lra Lia List Permutation.
From Coquelicot Require Import Complex.
From Verif Require Import CplxModel MatSpec MatProofs MatProofs4 MatAlg DiracProofs StagSpec.
Import ListNotations.
Open Scope C_scope.
Set Bullet Behavior "Strict Subproofs".

(** ** Sums on the sites *)
Fixpoint lsum (l : list nat) (f : nat -> C) : C := match l with [] => RtoC 0 | x :: l => f x + lsum l f end.
Lemma lsum_app l l' f : lsum (l ++ l') f = lsum l f + lsum l' f.
Proof. induction l as [|x l IH]; cbn [lsum app]; [ring|rewrite IH; ring]. Qed.
Lemma csum_lsum n f : csum n f = lsum (seq 0 n) f.
Proof. induction n as [|n IH]; [reflexivity|]. rewrite seq_S, lsum_app. cbn [csum lsum Nat.add]. rewrite IH. ring. Qed.
Lemma lsum_perm l l' f : Permutation l l' -> lsum l f = lsum l' f.
Proof. induction 1; cbn [lsum]; [reflexivity|now rewrite IHPermutation|ring|congruence]. Qed.
Lemma lsum_map l g f : lsum (map g l) f = lsum l (fun x => f (g x)).
Proof. induction l as [|x l IH]; cbn [lsum map]; [reflexivity|now rewrite IH]. Qed.
Lemma csum_reindex n (f g : nat -> nat) h : (forall x, (x < n)%nat -> (f x < n)%nat /\ g (f x) = x) -> (forall y, (y < n)%nat -> (g y < n)%nat /\ f (g y) = y) ->
  csum n (fun x => h (f x)) = csum n h.
Proof.
  intros Hf Hg. rewrite !csum_lsum, <- lsum_map. apply lsum_perm. apply NoDup_Permutation.
  - apply NoDup_map_inv with (f := g). rewrite map_map.
    rewrite (map_ext_in _ (fun x => x)), map_id; [apply seq_NoDup|]. intros x Hx. apply in_seq in Hx. apply Hf. lia.
  - apply seq_NoDup.
  - intros y. rewrite in_map_iff, in_seq. split.
    + intros (x & <- & Hx). apply in_seq in Hx. destruct (Hf x ltac:(lia)). lia.
    + intros Hy. exists (g y). rewrite in_seq. destruct (Hg y ltac:(lia)). split; [assumption|lia].
Qed.
Lemma csum_opp n f : csum n (fun x => - f x) = - csum n f.
Proof. induction n as [|n IH]; cbn [csum]; [ring|rewrite IH; ring]. Qed.
Lemma csum_minus n f g : csum n (fun x => f x - g x) = csum n f - csum n g.
Proof. unfold Cminus. rewrite csum_plus, csum_opp. reflexivity. Qed.
Lemma csum_scal_l n f c : csum n (fun k => c * f k) = c * csum n f.
Proof. induction n as [|n IH]; cbn [csum]; [ring|rewrite IH; ring]. Qed.
Lemma csum_conj n f : Cconj (csum n f) = csum n (fun k => Cconj (f k)).
Proof. induction n as [|n IH]; cbn [csum]; [apply injective_projections; cbn; ring|rewrite Cconj_plus, IH; reflexivity]. Qed.

(** ** Colours *)
Definition vdot (u w : cvec) : C := csum 3 (fun i => Cconj (u i) * w i).
Lemma vdot_ext u u' w w' : veq u u' -> veq w w' -> vdot u w = vdot u' w'.
Proof. intros H K. apply csum_ext. intros i Hi. rewrite H, K by exact Hi. reflexivity. Qed.
Lemma vdot_mvec u M w : vdot u (mvec M w) = vdot (mvec (dag M) u) w.
Proof. unfold vdot, mvec, dag. cbn [csum]. rewrite ?Cconj_plus, ?Cconj_mult, ?Cconj_conj, ?Cconj_R. ring. Qed.
Lemma vdot_mvec_dag u M w : vdot u (mvec (dag M) w) = vdot (mvec M u) w.
Proof. unfold vdot, mvec, dag. cbn [csum]. rewrite ?Cconj_plus, ?Cconj_mult, ?Cconj_conj, ?Cconj_R. ring. Qed.
Lemma vdot_sym u w : vdot u w = Cconj (vdot w u).
Proof. unfold vdot. rewrite csum_conj. apply csum_ext. intros i _. rewrite Cconj_mult, Cconj_conj. ring. Qed.
Lemma vdot_pos u : snd (vdot u u) = 0%R /\ (0 <= fst (vdot u u))%R.
Proof. unfold vdot. cbn [csum]. cbn. split; [ring|]. nra. Qed.

Section Alg.
Variables (n : nat) (nup ndw : nat -> nat -> nat -> nat) (L : lattice n nup ndw) (U : links).
Notation hop := (hop nup ndw U).
Lemma sdot_vdot f g : sdot n f g = csum n (fun x => vdot (f x) (g x)). Proof. reflexivity. Qed.
Lemma sdot_ext f f' g g' : feq n f f' -> feq n g g' -> sdot n f g = sdot n f' g'.
Proof. intros H K. apply csum_ext. intros x Hx. apply vdot_ext; [apply H|apply K]; exact Hx. Qed.
Lemma sdot_hop_r p f g : sdot n f (hop p g) = csum 4 (fun mu => csum n (fun x => vdot (f x) (mvec (U p x mu) (g (nup p x mu)))) -
  csum n (fun x => vdot (f x) (mvec (dag (U (1 - p)%nat (ndw p x mu) mu)) (g (ndw p x mu))))).
Proof.
  rewrite (csum_ext 4 _ (fun mu => csum n (fun x => vdot (f x) (mvec (U p x mu) (g (nup p x mu))) -
    vdot (f x) (mvec (dag (U (1 - p)%nat (ndw p x mu) mu)) (g (ndw p x mu)))))) by (intros mu _; symmetry; apply csum_minus).
  rewrite csum_swap. rewrite sdot_vdot. apply csum_ext. intros x _. unfold vdot, StagSpec.hop. cbn [csum]. ring.
Qed.
Lemma sdot_hop_l p f g : sdot n (hop p f) g = csum 4 (fun mu => csum n (fun x => vdot (mvec (U p x mu) (f (nup p x mu))) (g x)) -
  csum n (fun x => vdot (mvec (dag (U (1 - p)%nat (ndw p x mu) mu)) (f (ndw p x mu))) (g x))).
Proof.
  rewrite (csum_ext 4 _ (fun mu => csum n (fun x => vdot (mvec (U p x mu) (f (nup p x mu))) (g x) -
    vdot (mvec (dag (U (1 - p)%nat (ndw p x mu) mu)) (f (ndw p x mu))) (g x)))) by (intros mu _; symmetry; apply csum_minus).
  rewrite csum_swap. rewrite sdot_vdot. apply csum_ext. intros x _. unfold vdot, StagSpec.hop. cbn [csum].
  rewrite ?Cconj_plus, ?Cconj_minus, ?Cconj_R. ring.
Qed.
(** the hopping is antihermitian *)
Lemma hop_adj p f g : (p < 2)%nat -> sdot n f (hop p g) = - sdot n (hop (1 - p) f) g.
Proof.
  intros Hp. rewrite sdot_hop_r, sdot_hop_l, <- csum_opp. apply csum_ext. intros mu Hmu.
  assert (Ep : (1 - (1 - p))%nat = p) by lia. rewrite Ep.
  assert (A : csum n (fun x => vdot (f x) (mvec (U p x mu) (g (nup p x mu)))) =
    csum n (fun x => vdot (mvec (dag (U p (ndw (1 - p)%nat x mu) mu)) (f (ndw (1 - p)%nat x mu))) (g x))).
  { rewrite <- (csum_reindex n (fun x => nup p x mu) (fun y => ndw (1 - p)%nat y mu) (fun x => vdot (mvec (dag (U p (ndw (1 - p)%nat x mu) mu)) (f (ndw (1 - p)%nat x mu))) (g x))).
    - apply csum_ext. intros x Hx. destruct (L p x mu Hp Hx Hmu) as (_ & _ & -> & _). apply vdot_mvec.
    - intros x Hx. destruct (L p x mu Hp Hx Hmu) as (H1 & _ & H2 & _). auto.
    - intros y Hy. destruct (L (1 - p)%nat y mu ltac:(lia) Hy Hmu) as (_ & H1 & _ & H2). rewrite Ep in H2. auto. }
  assert (B : csum n (fun x => vdot (f x) (mvec (dag (U (1 - p)%nat (ndw p x mu) mu)) (g (ndw p x mu)))) =
    csum n (fun x => vdot (mvec (U (1 - p)%nat x mu) (f (nup (1 - p)%nat x mu))) (g x))).
  { rewrite <- (csum_reindex n (fun x => ndw p x mu) (fun y => nup (1 - p)%nat y mu) (fun x => vdot (mvec (U (1 - p)%nat x mu) (f (nup (1 - p)%nat x mu))) (g x))).
    - apply csum_ext. intros x Hx. destruct (L p x mu Hp Hx Hmu) as (_ & _ & _ & ->). apply vdot_mvec_dag.
    - intros x Hx. destruct (L p x mu Hp Hx Hmu) as (_ & H1 & _ & H2). auto.
    - intros y Hy. destruct (L (1 - p)%nat y mu ltac:(lia) Hy Hmu) as (H1 & _ & H2 & _). rewrite Ep in H2. auto. }
  rewrite A, B. ring.
Qed.
Lemma sdot_comb_r f a g b h : sdot n f (fcomb a g b h) = a * sdot n f g + b * sdot n f h.
Proof. rewrite !sdot_vdot, <- !csum_scal_l, <- csum_plus. apply csum_ext. intros x _. unfold vdot, fcomb. cbn [csum]. ring. Qed.
Lemma sdot_comb_l f a g b h : sdot n (fcomb a g b h) f = a * sdot n g f + b * sdot n h f.
Proof.
  rewrite !sdot_vdot, <- !csum_scal_l, <- csum_plus. apply csum_ext. intros x _. unfold vdot, fcomb. cbn [csum].
  rewrite ?Cconj_plus, ?Cconj_mult, ?Cconj_R. ring.
Qed.
Lemma sdot_sym f g : sdot n f g = Cconj (sdot n g f).
Proof. rewrite !sdot_vdot, csum_conj. apply csum_ext. intros x _. apply vdot_sym. Qed.
Lemma sdot_pos f : snd (sdot n f f) = 0%R /\ (0 <= fst (sdot n f f))%R.
Proof.
  rewrite sdot_vdot. clear L. induction n as [|k IH]; cbn [csum]; [cbn; lra|]. destruct IH as [I1 I2], (vdot_pos (f k)) as [V1 V2]. unfold Cplus. cbn [fst snd]. split; lra.
Qed.
Lemma D2_form m2 f g : sdot n f (stD2ee nup ndw U m2 g) = m2 * sdot n f g + / 4 * sdot n (hop 1 f) (hop 1 g).
Proof.
  unfold stD2ee. rewrite sdot_comb_r, (hop_adj 0) by lia. change (1 - 0)%nat with 1%nat.
  rewrite RtoC_opp, RtoC_inv by lra. ring.
Qed.
Lemma D2_form_l m2 f g : sdot n (stD2ee nup ndw U m2 f) g = m2 * sdot n f g + / 4 * sdot n (hop 1 f) (hop 1 g).
Proof.
  rewrite sdot_sym, D2_form, Cconj_plus, !Cconj_mult, Cconj_R, <- !sdot_sym. f_equal. f_equal. rewrite <- RtoC_inv by lra. apply Cconj_R.
Qed.
End Alg.
