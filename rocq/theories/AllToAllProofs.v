(** All-to-all communicator: proofs. *)
From Verif Require Import Base GeometryModel HaloModel HaloProofs AllToAllModel.

(** *** counters *)
Definition sel (q : Z) (l : list entry) : list entry := filter (fun e => e_rank e =? q) l.

Lemma sel_app q l m : sel q (l ++ m) = sel q l ++ sel q m.
Proof. unfold sel. apply filter_app. Qed.

Lemma nper_spec l q : nper_rank_temp l q = Z.of_nat (length (sel q l)).
Proof.
  unfold nper_rank_temp.
  enough (G : forall t, fold_left (fun t e => incr t (e_rank e)) l t q = t q + Z.of_nat (length (sel q l))) by (rewrite G; lia).
  unfold sel. induction l as [|e l IH]; intros t; cbn [fold_left filter]; [cbn; lia|].
  rewrite IH. unfold incr. destruct (Z.eqb_spec (e_rank e) q) as [->|Hn].
  - rewrite Z.eqb_refl. cbn [length]. lia.
  - replace (q =? e_rank e) with false by lia. reflexivity.
Qed.

Lemma other_step_ok N temp r o d : 0 < N -> 0 <= r < N -> 0 <= d < N ->
  other_step N temp r (Some o) d = Some (fun j => if j =? (r - d) mod N then temp ((r - d) mod N) r else o j).
Proof.
  intros HN Hr Hd. unfold other_step.
  assert (E : Z.rem (r + N - d) N = (r - d) mod N).
  { rewrite Z.rem_mod_nonneg by lia. replace (r + N - d) with (r - d + 1 * N) by ring. now rewrite Z.mod_add by lia. }
  rewrite E. pose proof (Z.mod_pos_bound (r - d) N HN) as Hb.
  assert (E2 : Z.rem ((r - d) mod N + N + d) N = r).
  { rewrite Z.rem_mod_nonneg by lia. replace ((r - d) mod N + N + d) with ((r - d) mod N + d + 1 * N) by ring.
    rewrite Z.mod_add by lia. rewrite Z.add_mod_idemp_l by lia. replace (r - d + d) with r by ring. apply Z.mod_small; lia. }
  rewrite E2, Z.eqb_refl. reflexivity.
Qed.

Lemma other_spec N temp r : 0 < N -> 0 <= r < N ->
  exists o, nper_rank_other_temp N temp r = Some o /\ forall q, 0 <= q < N -> o q = temp q r.
Proof.
  intros HN Hr. unfold nper_rank_other_temp.
  assert (G : forall L o, (forall d, In d L -> 0 <= d < N) ->
    exists o', fold_left (other_step N temp r) L (Some o) = Some o' /\
      forall q, (o q = temp q r \/ exists d, In d L /\ q = (r - d) mod N) -> o' q = temp q r).
  { induction L as [|d L IH]; intros o HL.
    - exists o. split; [reflexivity|]. intros q [H|(d & [] & _)]. exact H.
    - cbn [fold_left]. rewrite other_step_ok by (auto; apply HL; now left).
      destruct (IH (fun j => if j =? (r - d) mod N then temp ((r - d) mod N) r else o j) (fun d' H' => HL d' (or_intror H'))) as (o' & E & H).
      exists o'. split; [exact E|]. intros q Hq. apply H.
      destruct (Z.eqb_spec q ((r - d) mod N)) as [->|Hn]; [left; reflexivity|].
      destruct Hq as [Hq|(d' & [<-|Hd'] & Hq)]; [left; exact Hq|contradiction|right; exists d'; auto]. }
  destruct (G (seqZ N ++ seqZ N) (fun _ => 0)) as (o' & E & H).
  { intros d Hd. apply in_app_or in Hd as [Hd|Hd]; now apply in_seqZ. }
  exists o'. split; [exact E|]. intros q Hq. apply H. right. exists ((r - q) mod N).
  pose proof (Z.mod_pos_bound (r - q) N HN). split; [apply in_or_app; left; now apply in_seqZ|].
  rewrite <- (Z.mod_small q N) at 1 by lia. rewrite Zminus_mod_idemp_r. f_equal. ring.
Qed.

(** *** offsets *)
Section Off.
Context (t : Z -> Z).
Fixpoint off_at (l : list Z) (a q : Z) : Z :=
  match l with [] => a | x :: r => if x =? q then a else off_at r (a + t x) q end.
Definition tot (l : list Z) : Z := fold_right (fun q s => t q + s) 0 l.

Lemma nth_offsets l : forall a q, In q l -> nth (map_pos q l) (offsets a (map t l)) 0 = off_at l a q.
Proof.
  unfold map_pos. induction l as [|x l IH]; intros a q Hq; [destruct Hq|]. cbn [pos_of map offsets off_at].
  destruct (Z.eqb_spec x q) as [->|Hn]; [reflexivity|]. destruct Hq as [->|Hq]; [contradiction|].
  specialize (IH (a + t x) q Hq). destruct (pos_of q l) eqn:E; cbn [option_map nth]; [exact IH|].
  exfalso. clear -E Hq. induction l as [|y l IH]; [destruct Hq|]. cbn [pos_of] in E. destruct (Z.eqb_spec y q); [discriminate|].
  destruct Hq as [->|Hq]; [contradiction|]. destruct (pos_of q l); [discriminate|]. now apply IH.
Qed.

Context (Ht : forall q, 0 <= t q).
Lemma tot_nonneg l : 0 <= tot l.
Proof. induction l as [|x l IH]; cbn [tot fold_right]; [lia|]. fold (tot l). specialize (Ht x). lia. Qed.
Lemma off_ge l : forall a q, a <= off_at l a q.
Proof. induction l as [|x l IH]; intros a q; cbn [off_at]; [lia|]. destruct (x =? q); [lia|]. specialize (IH (a + t x) q). specialize (Ht x). lia. Qed.
Lemma off_le l : forall a q, In q l -> off_at l a q + t q <= a + tot l.
Proof.
  induction l as [|x l IH]; intros a q Hq; [destruct Hq|]. cbn [off_at tot fold_right]. fold (tot l).
  destruct (Z.eqb_spec x q) as [->|Hn]; [pose proof (tot_nonneg l); lia|]. destruct Hq as [->|Hq]; [contradiction|].
  specialize (IH (a + t x) q Hq). lia.
Qed.
Lemma off_disj l : forall a p q, In p l -> In q l -> p <> q -> off_at l a p + t p <= off_at l a q \/ off_at l a q + t q <= off_at l a p.
Proof.
  induction l as [|x l IH]; intros a p q Hp Hq Hn; [destruct Hp|]. cbn [off_at].
  destruct (Z.eqb_spec x p) as [Hxp|Hxp], (Z.eqb_spec x q) as [Hxq|Hxq].
  - congruence.
  - left. subst x. apply off_ge.
  - right. subst x. apply off_ge.
  - destruct Hp as [->|Hp]; [contradiction|]. destruct Hq as [->|Hq]; [contradiction|]. apply IH; assumption.
Qed.
Lemma off_cover l : forall a j, NoDup l -> a <= j < a + tot l -> exists q, In q l /\ off_at l a q <= j < off_at l a q + t q.
Proof.
  induction l as [|x l IH]; intros a j Hnd Hj; [cbn in Hj; lia|]. cbn [tot fold_right] in Hj. fold (tot l) in Hj.
  inversion Hnd as [|? ? Hx Hl]; subst.
  destruct (Z_lt_le_dec j (a + t x)) as [H|H].
  - exists x. split; [now left|]. cbn [off_at]. rewrite Z.eqb_refl. lia.
  - destruct (IH (a + t x) j Hl ltac:(lia)) as (q & Hq & Hr). exists q. split; [now right|].
    cbn [off_at]. destruct (Z.eqb_spec x q) as [->|]; [contradiction|]. exact Hr.
Qed.
Lemma sum_to_tot N : sum_to N t = tot (ranks_of N t).
Proof.
  unfold sum_to, ranks_of. assert (G : forall L a, fold_left (fun s q => s + t q) L a = a + tot (filter (fun q => negb (t q =? 0)) L)).
  { induction L as [|x L IH]; intros a; cbn [fold_left filter]; [cbn; ring|]. rewrite IH. destruct (Z.eqb_spec (t x) 0) as [E|E]; cbn [negb].
    - rewrite E. ring.
    - cbn [tot fold_right]. fold (tot (filter (fun q => negb (t q =? 0)) L)). ring. }
  rewrite G. ring.
Qed.
Lemma ranks_nodup N : NoDup (ranks_of N t).
Proof. unfold ranks_of. apply NoDup_filter, NoDup_seqZ. Qed.
Lemma ranks_in N q : In q (ranks_of N t) <-> 0 <= q < N /\ t q <> 0.
Proof. unfold ranks_of. rewrite filter_In, in_seqZ. destruct (Z.eqb_spec (t q) 0); cbn; intuition congruence. Qed.

(** side_msgs in a readable form *)
Lemma side_msgs_spec l n : forall a, NoDup l ->
  side_msgs (mkSide l (map t l) (offsets a (map t l)) n) = map (fun p => mkMsg p 909 (off_at l a p) (t p)) l.
Proof.
  unfold side_msgs. cbn [list_ranks nper_rank buf_off]. induction l as [|x l IH]; intros a Hnd; [reflexivity|].
  inversion Hnd as [|? ? Hx Hl]; subst. cbn [map offsets combine off_at fst snd]. rewrite Z.eqb_refl. f_equal.
  rewrite IH by assumption. apply map_ext_in. intros p Hp. destruct (Z.eqb_spec x p) as [->|]; [contradiction|reflexivity].
Qed.
End Off.

Lemma off_at_ext t t' l : (forall q, In q l -> t q = t' q) -> forall a q, off_at t l a q = off_at t' l a q.
Proof.
  induction l as [|x l IH]; intros H a q; [reflexivity|]. cbn [off_at]. rewrite (H x (or_introl eq_refl)).
  destruct (x =? q); [reflexivity|]. apply IH. intros; apply H; now right.
Qed.
Lemma ranks_of_ext N t t' : (forall q, 0 <= q < N -> t q = t' q) -> ranks_of N t = ranks_of N t'.
Proof. intros H. unfold ranks_of. apply filter_ext_in. intros q Hq. apply in_seqZ in Hq. now rewrite H. Qed.

(** *** filling of the buffers *)
Section Build.
Context (N : Z) (es : list entry).
Hypothesis Hes : forall e, In e es -> 0 <= e_rank e < N.
Let t q := Z.of_nat (length (sel q es)).
Let l := ranks_of N t.
Let off q := off_at t l 0 q.
Context (n : Z).
Let s := mkSide l (map t l) (offsets 0 (map t l)) n.

Lemma t_nonneg q : 0 <= t q. Proof. unfold t. lia. Qed.
Lemma in_ranks e : In e es -> In (e_rank e) l.
Proof.
  intros H. apply ranks_in. split; [now apply Hes|]. unfold t.
  assert (In e (sel (e_rank e) es)) by (apply filter_In; split; [assumption|apply Z.eqb_refl]).
  destruct (sel (e_rank e) es); [destruct H0|]. cbn [length]. lia.
Qed.

Lemma pos_of_in q L : In q L -> exists i, pos_of q L = Some i.
Proof.
  induction L as [|x L IH]; intros H; [destruct H|]. cbn [pos_of]. destruct (Z.eqb_spec x q); [eauto|].
  destruct H as [->|H]; [contradiction|]. destruct (IH H) as [i ->]. eexists; reflexivity.
Qed.
Lemma pos_of_nth q L : forall i, pos_of q L = Some i -> nth_error L i = Some q.
Proof.
  induction L as [|x L IH]; intros i E; [discriminate|]. cbn [pos_of] in E. destruct (Z.eqb_spec x q) as [->|].
  - injection E as <-. reflexivity.
  - destruct (pos_of q L) as [k|]; [|discriminate]. injection E as <-. cbn. now apply IH.
Qed.
Lemma map_pos_inj p q L : In p L -> In q L -> map_pos p L = map_pos q L -> p = q.
Proof.
  intros Hp Hq. destruct (pos_of_in p L Hp) as [i Ei], (pos_of_in q L Hq) as [j Ej]. unfold map_pos. rewrite Ei, Ej.
  intros ->. apply pos_of_nth in Ei, Ej. congruence.
Qed.

Definition binv (l1 : list entry) (b : build) : Prop :=
  (forall q, In q l -> cur b (map_pos q l) = off q + Z.of_nat (length (sel q l1))) /\
  (forall q k e, In q l -> nth_error (sel q l1) k = Some e ->
     b_mine b (off q + Z.of_nat k) = Some (e_mine e) /\ b_theirs b (off q + Z.of_nat k) = Some (e_theirs e)).

Lemma binv_end : forall l2 l1 b, es = l1 ++ l2 -> binv l1 b -> binv es (fold_left (build_step s) l2 b).
Proof.
  induction l2 as [|e l2 IH]; intros l1 b E H.
  - rewrite app_nil_r in E. subst l1. exact H.
  - cbn [fold_left]. apply (IH (l1 ++ [e])); [rewrite <- app_assoc; exact E|].
    assert (Hin : In e es) by (rewrite E; apply in_or_app; right; now left).
    pose proof (in_ranks e Hin) as Hr. destruct H as [Hc Hv].
    set (qe := e_rank e) in *.
    assert (Hlt : forall q, In q l -> (length (sel q (l1 ++ [e])) <= length (sel q es))%nat).
    { intros q _. replace es with ((l1 ++ [e]) ++ l2) by (rewrite <- app_assoc; symmetry; exact E). rewrite (sel_app q (l1 ++ [e])), app_length. lia. }
    assert (Hse : sel qe [e] = [e]) by (unfold sel; cbn [filter]; fold qe; now rewrite Z.eqb_refl).
    assert (Hsn : forall q, q <> qe -> sel q [e] = []) by (intros q Hq; unfold sel; cbn [filter]; fold qe; replace (qe =? q) with false by lia; reflexivity).
    unfold build_step. cbn [list_ranks s]. fold l. fold qe. rewrite (Hc qe Hr). split; cbn [cur b_mine b_theirs].
    + intros q Hq. rewrite sel_app, app_length. destruct (Nat.eqb_spec (map_pos q l) (map_pos qe l)) as [Ep|Ep].
      * apply map_pos_inj in Ep; auto. subst q. rewrite Hc by assumption. rewrite Hse. cbn [length]. lia.
      * rewrite Hc by assumption. rewrite Hsn by congruence. cbn [length]. lia.
    + intros q k e' Hq Hk. rewrite sel_app in Hk.
      destruct (Nat.lt_ge_cases k (length (sel q l1))) as [Hkl|Hkl].
      * rewrite nth_error_app1 in Hk by assumption. destruct (Hv q k e' Hq Hk) as [V1 V2].
        assert (Hne : off q + Z.of_nat k <> off qe + Z.of_nat (length (sel qe l1))).
        { destruct (Z.eq_dec q qe) as [->|Hn]; [lia|].
          pose proof (off_disj t t_nonneg l 0 q qe Hq Hr Hn) as D. fold (off q) (off qe) in D.
          pose proof (Hlt q Hq) as L1. pose proof (Hlt qe Hr) as L2. rewrite sel_app, app_length in L1, L2. rewrite Hse in L2. cbn [length] in L2.
          assert (t q = Z.of_nat (length (sel q es))) by reflexivity. assert (t qe = Z.of_nat (length (sel qe es))) by reflexivity. lia. }
        rewrite !tset_neq by assumption. auto.
      * rewrite nth_error_app2 in Hk by assumption.
        destruct (Z.eq_dec q qe) as [->|Hn]; [|rewrite Hsn in Hk by assumption; destruct (k - _)%nat; discriminate].
        rewrite Hse in Hk. destruct (k - length (sel qe l1))%nat as [|[|]] eqn:Ek; cbn in Hk; [|discriminate|discriminate].
        injection Hk as <-. replace (Z.of_nat k) with (Z.of_nat (length (sel qe l1))) by lia. rewrite !tset_eq. auto.
Qed.

Lemma build_spec q k e : nth_error (sel q es) k = Some e ->
  b_mine (build_bufs s es) (off q + Z.of_nat k) = Some (e_mine e) /\
  b_theirs (build_bufs s es) (off q + Z.of_nat k) = Some (e_theirs e).
Proof.
  intros Hk. assert (Hin : In e (sel q es)) by (eapply nth_error_In; eassumption).
  apply filter_In in Hin as [Hin Heq]. apply Z.eqb_eq in Heq.
  unfold build_bufs. apply (binv_end es []); [reflexivity| |rewrite <- Heq; now apply in_ranks|exact Hk].
  split; cbn [cur b_mine b_theirs].
  - intros p Hp. unfold s. cbn [buf_off]. rewrite nth_offsets by exact Hp. cbn [sel filter length]. fold (off p). lia.
  - intros p [|k'] e' _ H; discriminate H.
Qed.
End Build.
