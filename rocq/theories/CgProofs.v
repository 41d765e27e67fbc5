(** The conjugate gradient: what it returns solves the system; it returns *)
From Coq Require Import Reals List ZArith Lra Lia Psatz.
From Verif Require Import CgModel CgSpec CgAlg.
Import ListNotations.
Open Scope R_scope.

Section Cg.
Variables (N : nat) (f : rvec -> rvec) (niter : Z) (residue : R) (source : rvec).
Hypothesis flin : linear_op N f.
Notation loop := (cg_loop N f niter residue source).
Notation step := (cg_iteration N f).

Definition inv (st : cg_state) : Prop := veq N (c_r st) (fun i => source i - f (c_sol st) i).
Lemma step_inv : forall st st', inv st -> step st = Some st' ->
  inv st' /\ c_lambda st' = vnorm2 N (c_r st') /\ c_delta st' = c_lambda st' /\ c_iter st' = (c_iter st + 1)%Z.
Proof.
  intros st st' H. unfold cg_iteration. destruct Req_EM_T; [ discriminate | ]. destruct Req_EM_T; [ discriminate | ].
  intros [= <-]. unfold inv in *. cbn [c_r c_sol c_lambda c_delta c_iter]. split; [ | auto ].
  intros i Hi. rewrite (H i Hi).
  assert (veq N (fun j => c_sol st j + c_p st j * (c_delta st / rdot N (f (c_p st)) (c_p st)))
                (fun j => 1 * c_sol st j + (c_delta st / rdot N (f (c_p st)) (c_p st)) * c_p st j)) as E by (intros j _; ring).
  rewrite (proj1 flin _ _ E i Hi), (proj2 flin _ _ _ _ i Hi). ring.
Qed.
Lemma loop_sound : forall fuel st st', inv st -> (c_iter st < niter)%Z -> loop fuel st = Some st' ->
  inv st' /\ c_lambda st' = vnorm2 N (c_r st') /\ (c_iter st' <= niter)%Z /\ (c_lambda st' < residue * vnorm2 N source \/ c_iter st' = niter).
Proof.
  induction fuel; intros st st' H Hi; cbn [cg_loop]; destruct (step st) as [s | ] eqn:E; try discriminate;
    destruct (step_inv _ _ H E) as (H1 & H2 & H3 & H4).
  - destruct Rle_dec as [L | L]; [ destruct (Z.ltb_spec (c_iter s) niter); [ discriminate | ] | ]; intros [= <-];
      (split; [ assumption | split; [ assumption | split; [ lia | ] ] ]); [ right; lia | left; lra ].
  - destruct Rle_dec as [L | L]; [ destruct (Z.ltb_spec (c_iter s) niter); [ apply IHfuel; assumption | ] | ]; intros [= <-];
      (split; [ assumption | split; [ assumption | split; [ lia | ] ] ]); [ right; lia | left; lra ].
Qed.
Theorem cg_sound : forall guess sol, (1 <= niter)%Z -> cg_invert N f niter residue source guess = Some sol ->
  residual2 N f source sol < residue * vnorm2 N source.
Proof.
  intros guess sol Hn. unfold cg_invert. destruct Req_EM_T; [ discriminate | ].
  destruct (loop _ _) as [st | ] eqn:E; [ | discriminate ]. destruct (Z.eqb_spec (c_iter st) niter); [ discriminate | ].
  intros [= <-]. apply loop_sound in E; [ | intros i _; reflexivity | cbn; lia ].
  destruct E as (H1 & H2 & H3 & [H4 | H4]); [ | congruence ].
  unfold residual2, vnorm2 at 1. rewrite <- (rdot_ext N _ _ _ _ H1 H1). unfold vnorm2 in *. lra.
Qed.
(** the fuel does not matter *)
Lemma loop_fuel : forall fuel fuel' st, (Z.to_nat (niter - c_iter st) <= fuel)%nat -> (fuel <= fuel')%nat -> loop fuel' st = loop fuel st.
Proof.
  induction fuel; intros fuel' st H H'; destruct fuel'; try lia; cbn [cg_loop]; try reflexivity;
    (destruct (step st) as [s | ] eqn:E; [ | reflexivity ]);
    (assert (c_iter s = c_iter st + 1)%Z as Ei
      by (unfold cg_iteration in E; repeat (destruct Req_EM_T; [ discriminate | ]); injection E as <-; reflexivity));
    (destruct Rle_dec; [ | reflexivity ]); (destruct (Z.ltb_spec (c_iter s) niter); [ | reflexivity ]).
  - exfalso; lia.
  - apply IHfuel; lia.
Qed.

(** ** termination *)
Hypothesis fsym : symmetric_op N f.
Hypothesis fpos : positive_op N f.
Hypothesis Hres : 0 < residue.
Hypothesis Hsrc : vnorm2 N source <> 0.
Hypothesis HN : (Z.of_nat N < niter)%Z.
Variable r0 : rvec.
Notation rk k := (fst (rp N f r0 k)).
Notation pk k := (snd (rp N f r0 k)).
Lemma loop_total : forall fuel k st, nz N f r0 (S k) -> c_r st = rk k -> c_p st = pk k -> c_delta st = rdot N (rk k) (rk k) ->
  c_iter st = Z.of_nat k -> (niter <= Z.of_nat (fuel + k))%Z -> exists st', loop fuel st = Some st' /\ (c_iter st' <= Z.of_nat N)%Z.
Proof.
  assert (Hsp : 0 < vnorm2 N source) by (pose proof (rdot_pos N source); unfold vnorm2 in *; lra).
  induction fuel; intros k st Hnz Hr Hp Hd Hi Hf; pose proof (cg_finite N f fsym fpos r0 _ Hnz) as B.
  - exfalso; lia.
  - pose proof (cg_alpha_pos N f fsym fpos r0 _ Hnz k ltac:(lia)) as Ha. pose proof (Hnz k ltac:(lia)) as Hk.
    cbn [cg_loop]. unfold cg_iteration at 1. rewrite Hr, Hp, Hd, Hi.
    destruct Req_EM_T as [e | _]; [ exfalso; lra | ]. destruct Req_EM_T as [e | _]; [ exfalso; auto | ].
    match goal with |- context [Some (CG ?s ?r ?p ?d ?l ?i)] => set (st' := CG s r p d l i) end.
    assert (c_lambda st' = rdot N (rk (S k)) (rk (S k))) as EL by reflexivity. cbn [c_lambda].
    change (rdot N (rk (S k)) (rk (S k))) with (c_lambda st') in EL.
    match goal with |- context [Rle_dec ?a ?b] => change b with (rdot N (rk (S k)) (rk (S k))) end.
    destruct Rle_dec as [L | L].
    + assert (nz N f r0 (S (S k))) as Hnz'.
      { intros j Hj. destruct (Nat.eq_dec j (S k)) as [-> | ]; [ | apply Hnz; lia ]. nra. }
      pose proof (cg_finite N f fsym fpos r0 _ Hnz') as B'. change (c_iter st') with (Z.of_nat k + 1)%Z.
      destruct (Z.ltb_spec (Z.of_nat k + 1) niter); [ | lia ].
      apply (IHfuel (S k) st'); [ assumption | reflexivity | reflexivity | reflexivity | cbn [c_iter st']; lia | lia ].
    + exists st'. split; [ reflexivity | cbn [c_iter st']; lia ].
Qed.
Theorem cg_total : forall guess,
  ~ veq N (f (match guess with Some g => g | None => fun _ => 0 end)) source ->
  r0 = (fun i => source i - f (match guess with Some g => g | None => fun _ => 0 end) i) ->
  exists sol, cg_invert N f niter residue source guess = Some sol.
Proof.
  intros guess Hg E. unfold cg_invert. destruct Req_EM_T as [e | _]; [ exfalso; auto | ].
  match goal with |- context [cg_loop _ _ _ _ _ _ ?s] => set (st := s) end.
  destruct (loop_total (Z.to_nat niter) 0 st) as (st' & -> & Hi).
  - intros k Hk. replace k with 0%nat by lia. cbn [rp fst]. intros Z0. apply rdot_zero in Z0. apply Hg. intros i Hi.
    specialize (Z0 i Hi). rewrite E in Z0. cbn beta in Z0. lra.
  - cbn. symmetry; exact E.
  - cbn. symmetry; exact E.
  - cbn [st c_delta rp fst]. rewrite E. reflexivity.
  - reflexivity.
  - lia.
  - destruct (Z.eqb_spec (c_iter st') niter); [ lia | eauto ].
Qed.
End Cg.

Theorem cg_exact_guess : forall N f niter residue source g, linear_op N f -> veq N (f g) source ->
  cg_invert N f niter residue source (Some g) = None.
Proof.
  intros N f niter residue source g Hf H. unfold cg_invert. destruct Req_EM_T; [ reflexivity | ].
  set (r := fun i => source i - f g i).
  assert (veq N r (fun _ => 0)) as Z by (intros i Hi; unfold r; rewrite (H i Hi); ring).
  assert (rdot N (f r) r = 0) as E by (rewrite rdot_sym; apply rdot_zero_l; assumption).
  destruct (Z.to_nat niter); cbn [cg_loop]; unfold cg_iteration; cbn [c_p]; (destruct Req_EM_T; [ reflexivity | contradiction ]).
Qed.
