From Verif Require Import Base LockModel.
Open Scope Z_scope.

Definition touches (o : lop) : bool := match o with Trunc _ | Write _ => true | _ => false end.

Lemma firstn_S_nth {A} (l : list A) i d : (i < length l)%nat -> firstn (S i) l = firstn i l ++ [nth i l d].
Proof.
  revert i; induction l as [|a l IH]; intros i H; cbn in H; [lia|]. destruct i; cbn; auto. f_equal. apply IH. lia.
Qed.

Lemma found_S tag f tr i o : nth_error tr i = Some o -> found tag f tr (S i) = lstep tag (found tag f tr i) o.
Proof.
  intros H. unfold found, lrun. assert (L : (i < length tr)%nat) by (apply nth_error_Some; congruence).
  rewrite (firstn_S_nth tr i o) by auto. rewrite fold_left_app. cbn. now rewrite (nth_error_nth _ _ o H).
Qed.
Lemma found_past tag f tr i : nth_error tr i = None -> found tag f tr (S i) = found tag f tr i.
Proof. intros H. apply nth_error_None in H. unfold found. now rewrite !firstn_all2 by lia. Qed.

(* the file is kept while nobody touches it *)
Lemma found_keep tag f tr i : forall j, (i <= j)%nat ->
  (forall k o, (i <= k < j)%nat -> nth_error tr k = Some o -> touches o = false) -> found tag f tr j = found tag f tr i.
Proof.
  induction j as [|j IH]; intros L H; [now replace i with 0%nat by lia|].
  destruct (Nat.eq_dec i (S j)) as [->|N]; auto.
  destruct (nth_error tr j) as [o|] eqn:E.
  - rewrite (found_S _ _ _ _ _ E). specialize (H j o) as T. rewrite <- IH; [|lia|intros; eapply H; eauto; lia].
    destruct o; cbn in *; auto; discriminate T; auto; lia.
  - rewrite found_past by auto. apply IH; [lia|]. intros; eapply H; eauto; lia.
Qed.

Lemma found_exists tag f tr i : forall j, (i <= j)%nat -> found tag f tr i <> None -> found tag f tr j <> None.
Proof.
  induction j as [|j IH]; intros L H; [now replace i with 0%nat in H by lia|].
  destruct (Nat.eq_dec i (S j)) as [<-|N]; auto.
  destruct (nth_error tr j) as [o|] eqn:E.
  - rewrite (found_S _ _ _ _ _ E). destruct o; cbn; try discriminate; apply IH; auto; lia.
  - rewrite found_past by auto. apply IH; auto; lia.
Qed.

(* the value comes from the last operation touching the file *)
Lemma found_last tag tr : forall i t, found tag None tr i = Some (Some t) ->
  exists j p, (j < i)%nat /\ nth_error tr j = Some (Write p) /\ tag p = t /\
    forall k o, (j < k < i)%nat -> nth_error tr k = Some o -> touches o = false.
Proof.
  induction i as [|i IH]; intros t H; [discriminate|].
  destruct (nth_error tr i) as [o|] eqn:E.
  - rewrite (found_S _ _ _ _ _ E) in H. destruct o as [p|p|p|p]; cbn in H; try discriminate.
    + destruct (IH _ H) as (j & q & A & B & C & D). exists j, q. split; [lia|]. split; auto. split; auto.
      intros k o K Ek. destruct (Nat.eq_dec k i) as [->|N]; [|apply (D k); auto; lia].
      rewrite E in Ek. injection Ek as <-. reflexivity.
    + injection H as H. exists i, p. split; [lia|]. split; auto. split; auto. intros k o K. lia.
    + destruct (IH _ H) as (j & q & A & B & C & D). exists j, q. split; [lia|]. split; auto. split; auto.
      intros k o K Ek. destruct (Nat.eq_dec k i) as [->|N]; [|apply (D k); auto; lia].
      rewrite E in Ek. injection Ek as <-. reflexivity.
  - rewrite found_past in H by auto. destruct (IH _ H) as (j & q & A & B & C & D). exists j, q. split; [lia|]. split; auto.
    split; auto. intros k o K Ek. apply (D k o); auto. apply nth_error_None in E.
    assert (k < length tr)%nat by (apply nth_error_Some; congruence). lia.
Qed.

Lemma check_last tag tr i p : tag p <> 0 -> check_true tag (found tag None tr i) p = true ->
  exists j q, (j < i)%nat /\ nth_error tr j = Some (Write q) /\ tag q = tag p /\
    forall k o, (j < k < i)%nat -> nth_error tr k = Some o -> touches o = false.
Proof.
  unfold check_true, test_tag. intros N H. apply Z.eqb_eq in H.
  destruct (found tag None tr i) as [[t|]|] eqn:E; try (exfalso; congruence). subst. now apply found_last.
Qed.

(* The times of the operations of two jobs which both find the file missing, write, and then see their own tag. *)
Lemma exclusion tag tr p q pp wp cp pq wq cq (time : nat -> Z) :
  (forall i j, (i <= j)%nat -> time i <= time j) ->
  tag p <> 0 -> tag q <> 0 -> (forall a b, tag a = tag b -> a = b) -> p <> q ->
  nth_error tr wp = Some (Write p) -> nth_error tr wq = Some (Write q) ->
  (pp < wp < cp)%nat -> (pq < wq < cq)%nat ->
  found tag None tr pp = None -> found tag None tr pq = None ->
  check_true tag (found tag None tr cp) p = true -> check_true tag (found tag None tr cq) q = true ->
  (forall j, nth_error tr j = Some (Write p) -> j = wp) -> (forall j, nth_error tr j = Some (Write q) -> j = wq) ->
  time cp - time wp <= time wq - time pq \/ time cq - time wq <= time wp - time pp.
Proof.
  intros Mono Tp Tq Inj Npq Wp Wq Op Oq Fp Fq Cp Cq Up Uq.
  destruct (check_last _ _ _ _ Tp Cp) as (j & a & A1 & A2 & A3 & A4). apply Inj in A3. subst a. apply Up in A2. subst j.
  destruct (check_last _ _ _ _ Tq Cq) as (j & a & B1 & B2 & B3 & B4). apply Inj in B3. subst a. apply Uq in B2. subst j.
  assert (Ne : wp <> wq) by (intros ->; congruence).
  assert (X : forall w x r, nth_error tr w = Some (Write x) -> found tag None tr r = None -> (r <= w)%nat).
  { intros w x r Hw Hr. destruct (le_lt_dec r w); auto. exfalso. apply (found_exists tag None tr (S w) r); auto.
    rewrite (found_S _ _ _ _ _ Hw). discriminate. }
  destruct (lt_dec wp wq) as [L|L].
  - left. assert (cp <= wq)%nat.
    { destruct (le_lt_dec cp wq); auto. specialize (A4 wq (Write q) ltac:(lia) Wq). discriminate. }
    pose proof (Mono cp wq H). pose proof (X _ _ _ Wp Fq) as Y. apply Mono in Y. lia.
  - right. assert (cq <= wp)%nat.
    { destruct (le_lt_dec cq wp); auto. specialize (B4 wp (Write p) ltac:(lia) Wp). discriminate. }
    pose proof (Mono cq wp H). pose proof (X _ _ _ Wq Fp) as Y. apply Mono in Y. lia.
Qed.
