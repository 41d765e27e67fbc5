From Coq Require Import Reals Lra Lia List Permutation Setoid.
From Coquelicot Require Import Complex.
From Verif Require Import CplxModel MatSpec MatProofs MatProofs4 MatAlg DiracProofs StagSpec StagProofs StagAlg.
Import ListNotations.
Open Scope C_scope.
Set Bullet Behavior "Strict Subproofs".

Lemma mvec_mmul x y v i : mvec (mmul x y) v i = mvec x (mvec y v) i.
Proof. unfold mvec, mmul. cbn [csum]. ring. Qed.
Lemma mvec_mid v : veq (mvec mid v) v.
Proof. intros i Hi. unfold mvec, mid. destruct i as [|[|[|i]]]; [| | |lia]; cbn [csum Nat.eqb]; ring. Qed.
Lemma mvec_lin x (a b : C) u w i : mvec x (fun j => a * u j + b * w j) i = a * mvec x u i + b * mvec x w i.
Proof. unfold mvec. cbn [csum]. ring. Qed.
Section Alg2.
Variables (n : nat) (nup ndw : nat -> nat -> nat -> nat) (L : lattice n nup ndw).
Lemma hop_covariant g U p f : (p < 2)%nat -> (forall q x, (q < 2)%nat -> (x < n)%nat -> unitary (g q x)) ->
  feq n (hop nup ndw (gauged_links nup g U) p (gauged (g (1 - p)%nat) f)) (gauged (g p) (hop nup ndw U p f)).
Proof.
  intros Hp Hg x Hx i Hi. unfold hop, gauged, gauged_links.
  assert (T : forall mu, (mu < 4)%nat ->
    mvec (mmul (g p x) (mmul (U p x mu) (dag (g (1 - p)%nat (nup p x mu))))) (mvec (g (1 - p)%nat (nup p x mu)) (f (nup p x mu))) i = mvec (g p x) (mvec (U p x mu) (f (nup p x mu))) i /\
    mvec (dag (mmul (g (1 - p)%nat (ndw p x mu)) (mmul (U (1 - p)%nat (ndw p x mu) mu) (dag (g (1 - (1 - p))%nat (nup (1 - p)%nat (ndw p x mu) mu))))))
      (mvec (g (1 - p)%nat (ndw p x mu)) (f (ndw p x mu))) i = mvec (g p x) (mvec (dag (U (1 - p)%nat (ndw p x mu) mu)) (f (ndw p x mu))) i).
  { intros mu Hmu. destruct (L p x mu Hp Hx Hmu) as (Hu & Hd & _ & E). split.
    - rewrite <- !mvec_mmul. apply mvec_ext; [|intros j _; reflexivity|exact Hi]. rewrite !mmul_assoc, unitary_l, mmul_1_r by (apply Hg; lia || assumption). reflexivity.
    - rewrite E. replace (1 - (1 - p))%nat with p by lia. rewrite <- !mvec_mmul. apply mvec_ext; [|intros j _; reflexivity|exact Hi].
      rewrite !dag_mul, dag_dag, !mmul_assoc, unitary_l, mmul_1_r by (apply Hg; lia || assumption). reflexivity. }
  cbn [csum]. destruct (T 0%nat ltac:(lia)) as [-> ->], (T 1%nat ltac:(lia)) as [-> ->], (T 2%nat ltac:(lia)) as [-> ->], (T 3%nat ltac:(lia)) as [-> ->]. unfold mvec. cbn [csum]. ring.
Qed.
Lemma hop_comb U p a f b h x i : hop nup ndw U p (fcomb a f b h) x i = a * hop nup ndw U p f x i + b * hop nup ndw U p h x i.
Proof. unfold hop, fcomb. cbn [csum]. rewrite !mvec_lin. ring. Qed.
Lemma hop_feq U p f f' : (p < 2)%nat -> feq n f f' -> feq n (hop nup ndw U p f) (hop nup ndw U p f').
Proof.
  intros Hp H x Hx i Hi. unfold hop. apply csum_ext. intros mu Hmu. destruct (L p x mu Hp Hx Hmu) as (Hu & Hd & _).
  f_equal; apply mvec_ext; try exact Hi; try (intros ? ? _ _; reflexivity); apply H; assumption.
Qed.
Ltac cfield := apply injective_projections; unfold Cminus, Copp, Cplus, Cmult, RtoC; cbn [fst snd]; field; repeat split; first [assumption | lra].
Lemma DdagD U m f : feq n (stD nup ndw U (-1) m 0 (fun p => stD nup ndw U 1 m p f)) (stD2ee nup ndw U (m * m) (f 0%nat)).
Proof.
  intros x Hx i Hi. unfold stD at 1, stD2ee, fcomb at 1 2. change (1 - 0)%nat with 1%nat. cbv beta. unfold stD at 2. rewrite hop_comb.
  unfold stD, fcomb. change (1 - 0)%nat with 1%nat. change (1 - 1)%nat with 0%nat. cfield.
Qed.
Lemma D_adj U m f g : dot2 n f (fun p => stD nup ndw U 1 m p g) = dot2 n (fun p => stD nup ndw U (-1) m p f) g.
Proof.
  unfold dot2, stD. rewrite !sdot_comb_r, !sdot_comb_l. change (1 - 0)%nat with 1%nat. change (1 - 1)%nat with 0%nat.
  rewrite (hop_adj n nup ndw L U 0), (hop_adj n nup ndw L U 1) by lia. change (1 - 0)%nat with 1%nat. change (1 - 1)%nat with 0%nat. cfield.
Qed.
(** reconstruction of the odd part from the even one *)
Lemma solve U m src rho s : m <> 0%R ->
  feq n (stD2ee nup ndw U (m * m) (s 0%nat)) (fcomb 1 (stD nup ndw U (-1) m 0 src) 1 rho) ->
  feq n (s 1%nat) (fcomb (/ m) (src 1%nat) (- / m / 2) (hop nup ndw U 1 (s 0%nat))) ->
  feq n (stD nup ndw U 1 m 0 s) (fcomb 1 (src 0%nat) (/ m) rho) /\ feq n (stD nup ndw U 1 m 1 s) (src 1%nat).
Proof.
  intros Hm H0 H1. split; intros x Hx i Hi; unfold stD, fcomb; change (1 - 0)%nat with 1%nat; change (1 - 1)%nat with 0%nat.
  - rewrite (hop_feq U 0 _ _ ltac:(lia) H1 x Hx i Hi), hop_comb. pose proof (H0 x Hx i Hi) as E.
    unfold stD2ee, stD, fcomb in E. change (1 - 0)%nat with 1%nat in E.
    set (A := hop nup ndw U 0 (hop nup ndw U 1 (s 0%nat)) x i) in *. set (B := hop nup ndw U 0 (src 1%nat) x i) in *.
    assert (EA : A = RtoC 4 * (RtoC (m * m) * s 0%nat x i - (1%R * (m * src 0%nat x i + (-1 / 2)%R * B) + 1%R * rho x i))) by (rewrite <- E; cfield).
    rewrite EA. cfield.
  - rewrite (H1 x Hx i Hi). unfold fcomb. cfield.
Qed.
End Alg2.
