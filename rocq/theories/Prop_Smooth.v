(** C93: the schedule of the measurements on a smoothed configuration. *)
From Verif Require Import Base SmoothModel.

Lemma iter_s {A} (f : A -> A) k c : Nat.iter k f (f c) = Nat.iter (S k) f c.
Proof. induction k as [|k IH]; [reflexivity|]. change (f (Nat.iter k f (f c)) = f (Nat.iter (S k) f c)). now rewrite IH. Qed.
Lemma iter_plus {A} (f : A -> A) a b c : Nat.iter a f (Nat.iter b f c) = Nat.iter (a + b) f c.
Proof. induction a as [|a IH]; [reflexivity|]. change (f (Nat.iter a f (Nat.iter b f c)) = f (Nat.iter (a + b) f c)). now rewrite IH. Qed.

Section S.
Context {conf : Type} (cool stout wflow ape : conf -> conf).
(** the step of the method which is asked; there is none for HYP *)
Definition step_of (m : method_t) : option (conf -> conf) := match m with COOLING => Some cool | STOUT => Some stout | WFLOW => Some wflow | APE => Some ape | HYP => None end.
Lemma steps_ok sp f k : step_of (method sp) = Some f -> forall c n, steps_until cool stout wflow ape k sp c n = Some (Nat.iter k f c, n + Z.of_nat k).
Proof.
  intros Hf. induction k as [|k IH]; intros c n; [cbn; repeat f_equal; lia|]. cbn [steps_until].
  assert (E : one_step cool stout wflow ape sp c = Some (f c)) by (unfold one_step, step_of in *; destruct (method sp); congruence).
  rewrite E, IH. f_equal. f_equal; [apply iter_s|lia].
Qed.
Lemma next_ok sp n : 1 <= meas_each_nsmooth sp -> 0 <= n -> let m := meas_each_nsmooth sp in next_nsmooth_meas sp n = Some ((n / m + 1) * m).
Proof.
  intros Hm Hn m. unfold next_nsmooth_meas. fold m. destruct (Z.eqb_spec m 0); [lia|]. rewrite Z.quot_div_nonneg by lia. f_equal. f_equal. replace (n + m) with (n + 1 * m) by ring. rewrite Z.div_add by lia. reflexivity.
Qed.
End S.
Definition first_after (m n k : Z) : Prop := n < k /\ (m | k) /\ forall j, n < j -> (m | j) -> k <= j.

(** the number of steps which the input file asks, for the method which it asks *)
Definition asked_steps (sp : smooth_pars) : Z := match method sp with COOLING => cool_nsteps sp | STOUT => stout_nlevels sp | WFLOW => Wflow_nflows sp | APE => ape_nlevels sp | HYP => hyp_nlevels sp end.
Lemma asked_eq sp : nsmooth_of sp = asked_steps sp. Proof. unfold nsmooth_of, asked_steps. destruct (method sp); reflexivity. Qed.

(** C93: one call brings the configuration to the first multiple of the interval of measure strictly after the present number of steps, and says that it has not finished; if there
    is none up to the number of steps of the method, it leaves everything as it is and says that it has finished *)
Theorem C93_call :
  forall conf (cool stout wflow ape : conf -> conf) sp dirs f c n, 1 <= meas_each_nsmooth sp -> 0 <= n -> step_of cool stout wflow ape (method sp) = Some f -> (method sp = COOLING -> dirs = true) ->
  exists k, first_after (meas_each_nsmooth sp) n k /\
    smooth_until_next_meas cool stout wflow ape sp dirs c n = Some (if k <=? asked_steps sp then (Nat.iter (Z.to_nat (k - n)) f c, k, false) else (c, n, true)).
Proof.
  intros conf cool stout wflow ape sp dirs f c n Hm Hn Hf Hd. rewrite <- asked_eq. set (m := meas_each_nsmooth sp) in *. exists ((n / m + 1) * m).
  pose proof (Z.div_mod n m ltac:(lia)) as DM. pose proof (Z.mod_pos_bound n m ltac:(lia)) as MB. split.
  - split; [nia|]. split; [now exists (n / m + 1)|]. intros j Hj (q & ->). assert (n / m < q) by nia. nia.
  - unfold smooth_until_next_meas. assert (ND : (match method sp with COOLING => true | _ => false end && negb dirs)%bool = false) by (destruct (method sp); try reflexivity; now rewrite Hd).
    rewrite ND, (next_ok sp n Hm Hn). fold m. cbv zeta. destruct (Z.leb_spec ((n / m + 1) * m) (nsmooth_of sp)) as [L|L].
    + destruct (Z.ltb_spec (nsmooth_of sp) ((n / m + 1) * m)); [lia|]. rewrite (steps_ok cool stout wflow ape sp f _ Hf). replace (n + Z.of_nat (Z.to_nat ((n / m + 1) * m - n))) with ((n / m + 1) * m) by nia. reflexivity.
    + destruct (Z.ltb_spec (nsmooth_of sp) ((n / m + 1) * m)); [reflexivity|lia].
Qed.
Print Assumptions C93_call.

(** C93: the loop of measurement ends, and measures the configuration after 0, m, 2m, ... steps up to the number of steps of the method, each time with the right number of steps;
    the number of measures besides the first is the one the program declares *)
Theorem C93_loop :
  forall conf (cool stout wflow ape : conf -> conf) sp dirs f c, 1 <= meas_each_nsmooth sp -> 0 <= asked_steps sp -> step_of cool stout wflow ape (method sp) = Some f -> (method sp = COOLING -> dirs = true) ->
  let m := meas_each_nsmooth sp in let N := asked_steps sp / m in
  (forall l, measure_loop cool stout wflow ape sp dirs c 0 l <-> l = map (fun j => (Z.of_nat j * m, Nat.iter (j * Z.to_nat m) f c)) (seq 0 (S (Z.to_nat N)))) /\ nmeas_nonzero sp = Some N.
Proof.
  intros conf cool stout wflow ape sp dirs f c Hm HN Hf Hd m. rewrite <- asked_eq in *. intros N. assert (NP : 0 <= N) by (apply Z.div_pos; lia). split.
  2: { unfold nmeas_nonzero. fold m. destruct (Z.eqb_spec m 0); [lia|]. rewrite Z.quot_div_nonneg by lia. reflexivity. }
  assert (CALL : forall j c', 0 <= j <= N -> smooth_until_next_meas cool stout wflow ape sp dirs c' (j * m) = Some (if j <? N then (Nat.iter (Z.to_nat m) f c', (j + 1) * m, false) else (c', j * m, true))).
  { intros j c' Hj. destruct (C93_call conf cool stout wflow ape sp dirs f c' (j * m) Hm ltac:(nia) Hf Hd) as (k & (K1 & K2 & K3) & ->). rewrite <- asked_eq. fold m in K2, K3. 
    assert (Ek : k = (j + 1) * m). { destruct K2 as (q & ->). specialize (K3 ((j + 1) * m) ltac:(nia) ltac:(now exists (j + 1))). assert (q = j + 1) by nia. now subst q. }
    rewrite Ek. replace ((j + 1) * m - j * m) with m by ring. pose proof (Z.div_mod (nsmooth_of sp) m ltac:(lia)) as DM. pose proof (Z.mod_pos_bound (nsmooth_of sp) m ltac:(lia)) as MB. fold N in DM.
    destruct (Z.ltb_spec j N) as [L|L].
    - destruct (Z.leb_spec ((j + 1) * m) (nsmooth_of sp)); [reflexivity|nia].
    - destruct (Z.leb_spec ((j + 1) * m) (nsmooth_of sp)); [nia|reflexivity]. }
  assert (RUN : forall k j l, Z.of_nat j + Z.of_nat k = N -> measure_loop cool stout wflow ape sp dirs (Nat.iter (j * Z.to_nat m) f c) (Z.of_nat j * m) l <->
    l = map (fun j => (Z.of_nat j * m, Nat.iter (j * Z.to_nat m) f c)) (seq j (S k))).
  { induction k as [|k IH]; intros j l E; pose proof (CALL (Z.of_nat j) (Nat.iter (j * Z.to_nat m) f c) ltac:(lia)) as CJ.
    - destruct (Z.ltb_spec (Z.of_nat j) N); [lia|]. split.
      + intros H0. inversion H0; subst; [reflexivity|congruence].
      + intros ->. cbn [seq map]. eapply ml_end. exact CJ.
    - destruct (Z.ltb_spec (Z.of_nat j) N); [|lia]. rewrite iter_plus in CJ. replace (Z.to_nat m + j * Z.to_nat m)%nat with (S j * Z.to_nat m)%nat in CJ by ring. replace (Z.of_nat j + 1) with (Z.of_nat (S j)) in CJ by lia. specialize (IH (S j)). split.
      + intros H0. inversion H0; subst; [congruence|]. rewrite CJ in H1. injection H1 as <- <-. cbn [seq map]. f_equal. apply IH; [lia|assumption].
      + intros ->. cbn [seq map]. eapply ml_more; [exact CJ|]. apply IH; [lia|reflexivity]. }
  intros l. rewrite <- (RUN (Z.to_nat N) 0%nat l) by lia. reflexivity.
Qed.
Print Assumptions C93_loop.

(** *** Example: 7 levels of stout measured every 3: measures after 0, 3 and 6 steps *)
Definition ex_sp : smooth_pars := {| method := STOUT; meas_each_nsmooth := 3; cool_nsteps := 0; stout_nlevels := 7; Wflow_nflows := 0; ape_nlevels := 0; hyp_nlevels := 0 |}.
Example C93_ex : measure_loop (fun c : Z => c) (fun c => 2 * c) (fun c => c) (fun c => c) ex_sp false 1 0 [(0, 1); (3, 8); (6, 64)].
Proof.
  destruct (C93_loop Z (fun c => c) (fun c => 2 * c) (fun c => c) (fun c => c) ex_sp false (fun c => 2 * c) 1) as [H _]; [cbn; lia|cbn; lia|reflexivity|discriminate|]. apply H. reflexivity.
Qed.
