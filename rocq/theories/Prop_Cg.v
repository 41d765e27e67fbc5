(** C75: conjugate gradient.  C76: multishift conjugate gradient.  C77: solvers of the staggered operator. *)
From Coq Require Import Reals Lra Lia List ZArith.
From Verif Require Import CgModel CgSpec.
From Verif Require CgAlg CgProofs CgmProofs CgmProofs2.
Import ListNotations.
Open Scope R_scope.

(** ** C75 *)
(** when the routine returns, the solution has the residual required *)
Theorem C75_solution : forall N f niter residue source guess sol, linear_op N f -> (1 <= niter)%Z ->
  cg_invert N f niter residue source guess = Some sol -> residual2 N f source sol < residue * vnorm2 N source.
Proof. intros. eapply CgProofs.cg_sound; eassumption. Qed.
Print Assumptions C75_solution.
(** it returns, whatever the spectrum, if it is allowed more iterations than the unknowns *)
Theorem C75_returns : forall N f niter residue source guess, symmetric_op N f -> positive_op N f -> 0 < residue ->
  vnorm2 N source <> 0 -> (Z.of_nat N < niter)%Z ->
  ~ veq N (f (match guess with Some g => g | None => fun _ => 0 end)) source ->
  exists sol, cg_invert N f niter residue source guess = Some sol.
Proof. intros. eapply CgProofs.cg_total; try eassumption. reflexivity. Qed.
Print Assumptions C75_returns.
(** it does not when the guess is already the solution: nan, CRASH *)
Theorem C75_exact_guess_crashes : forall N f niter residue source g, linear_op N f -> veq N (f g) source ->
  cg_invert N f niter residue source (Some g) = None.
Proof. exact CgProofs.cg_exact_guess. Qed.
Print Assumptions C75_exact_guess_crashes.

Definition ex_f : rvec -> rvec := fun v i => match i with O => v 0%nat | _ => 2 * v i end.
Definition ones : rvec := fun _ => 1.
Lemma ex_lin N : linear_op N ex_f.
Proof. split; [ intros u v H [ | i] Hi; cbn; rewrite H by lia; reflexivity | intros a b u v [ | i] _; cbn; ring ]. Qed.
Lemma ex_sym : symmetric_op 2 ex_f. Proof. intros u v. unfold rdot, ex_f; cbn. ring. Qed.
Lemma ex_pos : positive_op 2 ex_f.
Proof.
  intros u H. unfold rdot, ex_f; cbn. destruct (Req_dec (u 0%nat) 0) as [E0 | ]; [ destruct (Req_dec (u 1%nat) 0) as [E1 | ] | ]; [ | nra | nra ].
  exfalso. apply H. intros [ | [ | i]] Hi; [ assumption | assumption | lia ].
Qed.
(** the hypotheses are met, and the two theorems together *)
Example C75_example : exists sol, cg_invert 2 ex_f 3 (/ 1000000) ones None = Some sol /\ residual2 2 ex_f ones sol < / 1000000 * 2.
Proof.
  destruct (C75_returns 2 ex_f 3 (/ 1000000) ones None ex_sym ex_pos) as (sol & E); [ lra | unfold vnorm2, rdot, ones; cbn; lra | reflexivity | | ].
  - intros H. specialize (H 0%nat ltac:(lia)). unfold ex_f, ones in H; cbn in H. lra.
  - exists sol. split; [ assumption | ]. apply C75_solution in E; [ | apply ex_lin | lia ].
    assert (vnorm2 2 ones = 2) as EN by (unfold vnorm2, rdot, ones; cbn; ring). rewrite EN in E. exact E.
Qed.
(** niter<=0 makes one iteration and returns what it got: the hypothesis on niter is needed *)
Theorem C75_niter_refuted : exists N f residue source sol, linear_op N f /\ symmetric_op N f /\ positive_op N f /\ 0 < residue /\
  cg_invert N f 0 residue source None = Some sol /\ residue * vnorm2 N source <= residual2 N f source sol.
Proof.
  exists 2%nat, ex_f, (/ 100), ones. eexists. split; [ apply ex_lin | split; [ exact ex_sym | split; [ exact ex_pos | split; [ lra | ] ] ] ].
  unfold cg_invert. destruct Req_EM_T as [e | _]; [ exfalso; unfold vnorm2, rdot, ones in e; cbn in e; lra | ].
  change (Z.to_nat 0) with 0%nat. cbn [cg_loop]. unfold cg_iteration. cbn [c_p c_delta c_iter c_sol c_r].
  destruct Req_EM_T as [e | _]; [ exfalso; unfold vnorm2, rdot, ones, ex_f in e; cbn in e; lra | ].
  destruct Req_EM_T as [e | _]; [ exfalso; unfold vnorm2, rdot, ones, ex_f in e; cbn in e; lra | ]. cbn [c_lambda c_iter].
  destruct Rle_dec as [_ | _]; cbn; (split; [ reflexivity | ]); unfold residual2, vnorm2, rdot, ones, ex_f; cbn;
    match goal with |- _ <= 0 + (?a) * (?a) + (?b) * (?b) => replace a with (1 / 3) by field; replace b with (- (1 / 3)) by field; lra end.
Qed.
Print Assumptions C75_niter_refuted.
(** a solution found exactly at iteration niter is refused: CRASH *)
Theorem C75_last_iteration_refuted : exists N f residue source, linear_op N f /\ symmetric_op N f /\ positive_op N f /\ 0 < residue /\
  cg_invert N f 1 residue source None = None /\ exists sol, cg_invert N f 2 residue source None = Some sol /\ veq N (f sol) source.
Proof.
  exists 1%nat, (fun v => v), (/ 2), ones. split; [ | split; [ | split; [ | split; [ lra | ] ] ] ].
  - split; [ intros u v H; exact H | intros a b u v i _; reflexivity ].
  - intros u v. reflexivity.
  - intros u H. unfold rdot; cbn. destruct (Req_dec (u 0%nat) 0) as [E | ]; [ | nra ]. exfalso. apply H. intros [ | i] Hi; [ assumption | lia ].
  - split; [ | eexists ]; unfold cg_invert; (destruct Req_EM_T as [e | _]; [ exfalso; unfold vnorm2, rdot, ones in e; cbn in e; lra | ]).
    + change (Z.to_nat 1) with 1%nat. cbn [cg_loop]. unfold cg_iteration at 1. cbn [c_p c_delta c_iter c_sol c_r].
      repeat (destruct Req_EM_T; [ reflexivity | ]). cbn [c_lambda c_iter].
      destruct Rle_dec as [L | _]; [ cbn; reflexivity | cbn; reflexivity ].
    + change (Z.to_nat 2) with 2%nat. cbn [cg_loop]. unfold cg_iteration at 1. cbn [c_p c_delta c_iter c_sol c_r].
      destruct Req_EM_T as [e | _]; [ exfalso; unfold vnorm2, rdot, ones in e; cbn in e; lra | ].
      repeat (destruct Req_EM_T as [e | _]; [ exfalso; unfold vnorm2, rdot, ones in e; cbn in e; lra | ]). cbn [c_lambda].
      destruct Rle_dec as [L | _]; [ exfalso; unfold vnorm2, rdot, ones in L; cbn in L; revert L; 
        match goal with |- _ <= 0 + ?a * ?a -> False => replace a with 0 by (field; lra) end; lra | ].
      cbn [c_iter]. change (0 + 1 =? 2)%Z with false. split; [ reflexivity | ]. intros [ | i] Hi; [ | lia ]. cbn [c_sol]. unfold vnorm2, rdot, ones; cbn. field.
Qed.
Print Assumptions C75_last_iteration_refuted.

(** ** C76 *)
(** each shift: the solution returned has the residual required for it *)
Theorem C76_solution : forall N f niter source shifts sols, linear_op N (f 0) -> shifted N f -> (1 <= niter)%Z ->
  cgm_invert N f niter source shifts = Some sols ->
  Forall2 (fun sr sol => residual2 N (f (fst sr)) source sol < snd sr * vnorm2 N source) shifts sols.
Proof. intros. eapply CgmProofs.cgm_sound; eassumption. Qed.
Print Assumptions C76_solution.
Theorem C76_returns : forall N f niter source shifts, symmetric_op N (f 0) -> positive_op N (f 0) -> vnorm2 N source <> 0 ->
  (Z.of_nat N < niter)%Z -> (forall s res, In (s, res) shifts -> 0 <= s /\ 0 < res) ->
  exists sols, cgm_invert N f niter source shifts = Some sols.
Proof. intros. eapply CgmProofs2.cgm_total; eassumption. Qed.
Print Assumptions C76_returns.
(** the operator at shift zero has to be positive, even if all the shifts are: a source in its kernel is refused, though the shifted systems have a solution *)
Theorem C76_kernel_crashes : forall N f niter source shifts, veq N (f 0 source) (fun _ => 0) -> cgm_invert N f niter source shifts = None.
Proof.
  intros N f niter source shifts H. unfold cgm_invert. destruct Req_EM_T; [ reflexivity | ].
  assert (rdot N source (f 0 source) = 0) as E by (rewrite CgAlg.rdot_sym; apply CgAlg.rdot_zero_l; exact H).
  destruct (Z.to_nat niter); cbn [cgm_loop]; unfold cgm_iteration; cbn [m_p]; (destruct Req_EM_T; [ reflexivity | contradiction ]).
Qed.
Print Assumptions C76_kernel_crashes.
Example C76_example : exists s1 s2, cgm_invert 2 (fun s v i => ex_f v i + s * v i) 3 ones [(1, / 100); (2, / 1000)] = Some [s1; s2] /\
  residual2 2 (fun v i => ex_f v i + 1 * v i) ones s1 < / 100 * 2 /\ residual2 2 (fun v i => ex_f v i + 2 * v i) ones s2 < / 1000 * 2.
Proof.
  set (f := fun (s : R) (v : rvec) i => ex_f v i + s * v i).
  assert (forall v, veq 2 (f 0 v) (ex_f v)) as F0 by (intros v i _; unfold f; ring).
  destruct (C76_returns 2 f 3 ones [(1, / 100); (2, / 1000)]) as (sols & E).
  - intros u v. rewrite (CgAlg.rdot_ext 2 _ _ v v (F0 u)), (CgAlg.rdot_ext 2 u u _ _ (CgAlg.veq_refl 2 u) (F0 v)) by apply CgAlg.veq_refl. apply ex_sym.
  - intros u H. rewrite (CgAlg.rdot_ext 2 u u _ _ (CgAlg.veq_refl 2 u) (F0 u)). apply ex_pos. assumption.
  - unfold vnorm2, rdot, ones; cbn; lra.
  - reflexivity.
  - intros s res [[= <- <-] | [[= <- <-] | []]]; lra.
  - pose proof (C76_solution 2 f 3 ones _ _ ltac:(split; [ intros u v H i Hi; rewrite !(F0 _ i Hi); apply (ex_lin 2); assumption |
      intros a b u v i Hi; rewrite !(F0 _ i Hi); apply (ex_lin 2); assumption ]) ltac:(intros s v i _; unfold f; ring) ltac:(lia) E) as S.
    inversion S as [ | a1 s1 l1 r1 R1 S1 E1 E2]; subst. inversion S1 as [ | a2 s2 l2 r2 R2 S2 E3 E4]; subst. inversion S2; subst.
    exists s1, s2. split; [ exact E | ]. cbn [fst snd] in R1, R2.
    assert (vnorm2 2 ones = 2) as EN by (unfold vnorm2, rdot, ones; cbn; ring). rewrite EN in R1, R2. split; assumption.
Qed.
