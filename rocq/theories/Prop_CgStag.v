(** C77: the solvers of the staggered operator *)
From Coq Require Import Reals Lra Lia List ZArith.
From Coquelicot Require Import Complex.
From Verif Require Import CplxModel MatSpec StagModel StagSpec CgStagModel CgStagSpec.
From Verif Require MatProofs MatAlg CgAlg CgStagProofs CgStagProofs2 Prop_Stag StagGeo StagAlg.
Import ListNotations.
Open Scope C_scope.
Set Bullet Behavior "Strict Subproofs".

(** D sol = source: exactly on the odd sites, and up to the residual required (with respect to the norm of the even part of D^dag source,
    divided by the squared mass) on the even ones; only the solution and the temporary change.  [b] is the even part of D^dag source *)
Theorem C77_solution : forall sched nup ndw n vin vout temp o vu vd cu cd conf tdag sol source mass niter residue guess m m',
  (forall l, order n (sched l)) -> lattice n nup ndw ->
  ForallOrdPairs apart [vout; vin; temp; conf; o; vu; vd; cu; cd] -> apart tdag conf -> apart tdag source -> apart sol conf -> apart sol source ->
  mass <> 0%R -> (1 <= niter)%Z ->
  inv_stD_cg sched nup ndw n vin vout temp o vu vd cu cd tdag sol guess conf mass niter residue source m = Some m' ->
  let U := lks m conf in let src := fun p => fld m source@[p] in let s := fun p => fld m' sol@[p] in
  let e := fcomb 1 (stD nup ndw U 1 mass 0 s) (-1) (src 0%nat) in let b := stD nup ndw U (-1) mass 0 src in
  feq n (stD nup ndw U 1 mass 1 s) (src 1%nat) /\
  (fst (sdot n e e) < residue * fst (sdot n b b) / (mass * mass))%R /\
  forall q, (forall l, q <> l ++ sol) -> (forall l, q <> l ++ tdag) -> m' q = m q.
Proof. intros. eapply CgStagProofs2.inv_sound; eassumption. Qed.
Print Assumptions C77_solution.
(** for any mass different from zero and any links it returns *)
Theorem C77_returns : forall sched nup ndw n vin vout temp o vu vd cu cd conf tdag sol source mass niter residue m,
  (forall l, order n (sched l)) -> lattice n nup ndw ->
  ForallOrdPairs apart [vout; vin; temp; conf; o; vu; vd; cu; cd] -> apart tdag conf -> apart tdag source ->
  mass <> 0%R -> (0 < residue)%R -> (Z.of_nat (6 * n) < niter)%Z ->
  fst (sdot n (stD nup ndw (lks m conf) (-1) mass 0 (fun p => fld m source@[p])) (stD nup ndw (lks m conf) (-1) mass 0 (fun p => fld m source@[p]))) <> 0%R ->
  exists m', inv_stD_cg sched nup ndw n vin vout temp o vu vd cu cd tdag sol None conf mass niter residue source m = Some m'.
Proof. intros. eapply CgStagProofs2.inv_total; eassumption. Qed.
Print Assumptions C77_returns.

(** the rational function of the squared operator: cons*source+sum_i weights_i*sol_i, where sol_i solves (D^2+pole_i) sol_i=source up to the residual *)
Theorem C77_rational : forall sched nup ndw n vin vout temp o vu vd cu cd conf m source niter residue chi_e cons weights poles m',
  (forall l, order n (sched l)) -> lattice n nup ndw -> ForallOrdPairs apart [vout; vin; temp; conf; o; vu; vd; cu; cd] -> (1 <= niter)%Z ->
  summ_src_and_all_inv_stD2ee_m2_cgm sched nup ndw n vin vout temp o vu vd cu cd chi_e conf cons weights poles niter residue source m = Some m' ->
  (exists sols, Forall2 (fun p sol => let e := fcomb 1 (fld m source) (-1) (stD2ee nup ndw (lks m conf) p sol) in
       (fst (sdot n e e) < residue * fst (sdot n (fld m source) (fld m source)))%R) poles sols /\
     feq n (fld m' chi_e) (wsum cons (fld m source) weights sols)) /\
  forall q, (forall l, q <> l ++ chi_e) -> m' q = m q.
Proof. intros. eapply CgStagProofs2.rational_sound; eassumption. Qed.
Print Assumptions C77_rational.
(** it is found if the massless operator has no kernel on the even sites *)
Theorem C77_multishift_returns : forall sched nup ndw n vin vout temp o vu vd cu cd conf m source niter residue poles,
  (forall l, order n (sched l)) -> lattice n nup ndw -> ForallOrdPairs apart [vout; vin; temp; conf; o; vu; vd; cu; cd] ->
  (forall f, feq n (hop nup ndw (lks m conf) 1 f) (fun _ _ => 0%R) -> feq n f (fun _ _ => 0%R)) ->
  (forall p, In p poles -> (0 <= p)%R) -> (0 < residue)%R -> (Z.of_nat (6 * n) < niter)%Z -> fst (sdot n (fld m source) (fld m source)) <> 0%R ->
  exists sols, inv_stD2ee_m2_cgm sched nup ndw n vin vout temp o vu vd cu cd conf poles niter residue source m = Some sols.
Proof. intros. eapply CgStagProofs2.cgm_st_total; eassumption. Qed.
Print Assumptions C77_multishift_returns.

(** the hypotheses are met: a point source on an even site of a 4x2x4x2 lattice, with any links *)
Definition ex_mem (L : path -> C) : mem := fun q => if path_dec q [9]%nat@[0]@[0]@[0] then 1%R else match rev q with 9%nat :: _ => 0%R | _ => L q end.
Lemma ex_src L p x i : fld (ex_mem L) [9]%nat@[p] x i = if Nat.eqb (p + x + i) 0 then 1%R else 0%R.
Proof.
  unfold fld, vec, ex_mem, at_. destruct (path_dec _ _) as [[= -> -> ->]|N]; [reflexivity|]. cbn [rev app].
  destruct (Nat.eqb_spec (p + x + i) 0); [exfalso; apply N; repeat f_equal; lia|reflexivity].
Qed.
Example C77_example L : exists m', inv_stD_cg (fun _ => rev (seq 0 32)) (StagGeo.table_of Prop_Stag.ex_stag_grid true) (StagGeo.table_of Prop_Stag.ex_stag_grid false) 32
    [1]%nat [0]%nat [2]%nat [4]%nat [5]%nat [6]%nat [7]%nat [8]%nat [10]%nat [11]%nat None [3]%nat 0.01 1000 0.0001 [9]%nat (ex_mem L) = Some m'.
Proof.
  destruct Prop_Stag.C74_ex_lattice as [Hl Ho].
  apply C77_returns.
  - intros _; exact Ho.
  - exact Hl.
  - exact Prop_Stag.C74_ex_apart.
  - apply Prop_Stag.apart_roots; discriminate.
  - apply Prop_Stag.apart_roots; discriminate.
  - lra.
  - lra.
  - reflexivity.
  - intros E. rewrite <- CgStagProofs.rdot_sdot in E. apply CgAlg.rdot_zero in E. specialize (E 0%nat ltac:(lia)).
    match type of E with to_r ?g _ = _ => pose proof (CgStagProofs.to_r_at g 0 0 ltac:(lia)) as T; change (6 * 0 + 0)%nat with 0%nat in T; rewrite T in E; clear T end. cbn [Nat.even Nat.div Nat.divmod fst snd] in E.
    unfold stD, fcomb in E. change (1 - 0)%nat with 1%nat in E.
    replace (hop _ _ _ 0 _ 0%nat 0%nat) with (RtoC 0) in E.
    + rewrite ex_src in E. change (Nat.eqb (0 + 0 + 0) 0) with true in E. cbn iota in E. unfold Cplus, Cmult, RtoC in E. cbn [fst snd] in E. lra.
    + unfold hop. symmetry. cbn [csum]. unfold mvec. cbn [csum]. rewrite !ex_src. cbn [Nat.eqb Nat.add]. ring.
Qed.
(** one even and one odd site, neighbours of each other in all the directions, links 1 from the odd one and -1 from the even one *)
Definition ex_mem1 : mem := fun q => match q with
  | [j; i; mu; x; p; 3]%nat => if Nat.eqb i j then (if Nat.eqb p 0 then -1 else 1)%R else 0%R
  | [i; x; 9]%nat => 1%R
  | _ => 0%R end.
Example C77_example_multishift : exists sols, inv_stD2ee_m2_cgm (fun _ => [0]%nat) (fun _ _ _ => 0%nat) (fun _ _ _ => 0%nat) 1
    [1]%nat [0]%nat [2]%nat [4]%nat [5]%nat [6]%nat [7]%nat [8]%nat [3]%nat [0.1; 2]%R 10 0.0001 [9]%nat ex_mem1 = Some sols.
Proof.
  apply C77_multishift_returns.
  - intros _. split; [repeat constructor; cbn; tauto|]. intros k. cbn. lia.
  - intros p x mu Hp Hx Hm. repeat split; lia.
  - exact Prop_Stag.C74_ex_apart.
  - intros f H x Hx i Hi. replace x with 0%nat by lia. pose proof (H 0%nat ltac:(lia) i Hi) as E. clear H.
    unfold hop in E. cbn [csum] in E. unfold lks, mvec, dag, mat, at_, ex_mem1 in E. cbn [csum Nat.eqb Nat.sub] in E.
    destruct i as [|[|[|]]]; try lia; cbn [Nat.eqb] in E; destruct (f 0%nat _) as [a b] eqn:Ef in E |- *;
      (let v0 := fresh in destruct (f 0%nat 0%nat) as [a0 b0] eqn:E0; destruct (f 0%nat 1%nat) as [a1 b1] eqn:E1; destruct (f 0%nat 2%nat) as [a2 b2] eqn:E2);
      unfold Cplus, Cminus, Copp, Cmult, Cconj, RtoC in E; cbn [fst snd] in E; injection E as Ea Eb; try (injection Ef as <- <-); unfold RtoC; f_equal; lra.
  - intros p [<-|[<-|[]]]; lra.
  - lra.
  - reflexivity.
  - unfold sdot. cbn [csum]. unfold fld, vec, at_, ex_mem1. unfold Cplus, Cmult, Cconj, RtoC. cbn [fst snd]. lra.
Qed.
