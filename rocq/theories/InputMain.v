From Verif Require Import Base MemModel ChecksumTextModel Ran2TextModel InputModel InputSpec InputUse InputProofs.
Open Scope Z_scope.
Local Notation length := List.length.

(** state of the stream when [items] are still to be read *)
Definition rinv (term : bool) (items : list item) (st : stream) : Prop :=
  Forall wf_item items /\ inv term (tokens_of items) st.

Lemma scan_gives f w v : gives f w v -> token w -> sscanf f w = Ok (1, Some v).
Proof.
  intros G T. destruct G as [size w L|z w D B]; cbn [sscanf].
  - rewrite sscanf_s_tok by auto. now replace (size <=? length w)%nat with false by (symmetry; apply Nat.leb_gt; exact L).
  - now rewrite (scan_decimal _ _ D B).
Qed.

Lemma words_next items w ws : words_of items = w :: ws -> exists items', next_word items = Some (w, items') /\ words_of items' = ws.
Proof.
  intros E. pose proof (next_words items) as N. destruct (next_word items) as [(w' & items')|]; rewrite E in N; [|discriminate].
  injection N as -> ->. eauto.
Qed.
Lemma words_none items : words_of items = [] -> next_word items = None.
Proof.
  intros E. pose proof (next_words items) as N. destruct (next_word items) as [(w' & items')|]; auto. congruence.
Qed.

Lemma catch_word term items st f w ws v : rinv term items st -> words_of items = w :: ws -> gives f w v ->
  exists st' items', read_var_catcherr f st = Ok (1, Some v, st') /\ rinv term items' st' /\ words_of items' = ws /\
    (length (rest st') < length (rest st))%nat.
Proof.
  intros (W & I) E G. destruct (words_next _ _ _ E) as (items' & N & E').
  rewrite <- (app_nil_r (tokens_of items)) in I.
  pose proof (token_loop_word term [] items st (S (length (rest st))) W I (Nat.lt_succ_diag_r _)) as T. rewrite N in T.
  destruct T as (st' & R & I' & LT & TK & W').
  exists st', items'. unfold read_var_catcherr. rewrite R. cbn [rbind Z.eqb Pos.eqb].
  rewrite (scan_gives _ _ _ G TK). cbn [rbind]. rewrite app_nil_r in I'. repeat split; auto.
Qed.

Lemma var_word term items st f w ws v : rinv term items st -> words_of items = w :: ws -> gives f w v ->
  exists st' items', read_var f st = Ok (Some v, st') /\ rinv term items' st' /\ words_of items' = ws /\
    (length (rest st') < length (rest st))%nat.
Proof.
  intros I E G. destruct (catch_word _ _ _ _ _ _ _ I E G) as (st' & items' & R & I').
  exists st', items'. split; auto. unfold read_var. rewrite R. reflexivity.
Qed.

Lemma catch_end_term items st f : rinv true items st -> words_of items = [] ->
  exists st', read_var_catcherr f st = Ok (-1, None, st') /\ eof st' = true.
Proof.
  intros (W & I) E. apply words_none in E.
  rewrite <- (app_nil_r (tokens_of items)) in I.
  pose proof (token_loop_word true [] items st (S (length (rest st))) W I (Nat.lt_succ_diag_r _)) as T. rewrite E in T.
  destruct T as (st' & fuel & R & I' & LT). unfold read_var_catcherr. rewrite R. destruct fuel as [|fuel]; [lia|]. cbn [token_loop].
  destruct I' as (E' & S & _). unfold read_next_token. rewrite E'. unfold fscanf_s. inversion S; subst.
  rewrite <- (app_nil_r (rest st')), skip_spaces by auto. cbn. eauto.
Qed.
Lemma catch_end_open items st f : rinv false items st -> words_of items = [] -> read_var_catcherr f st = Crash.
Proof.
  intros (W & I) E. apply words_none in E.
  rewrite <- (app_nil_r (tokens_of items)) in I.
  pose proof (token_loop_word false [] items st (S (length (rest st))) W I (Nat.lt_succ_diag_r _)) as T. rewrite E in T.
  destruct T as (st' & fuel & R & I' & LT). unfold read_var_catcherr. rewrite R. destruct fuel as [|fuel]; [lia|]. cbn [token_loop].
  now rewrite no_token_open.
Qed.

Lemma read_all_words term : forall fs ws vs more items st, gives_all fs ws vs -> rinv term items st -> words_of items = ws ++ more ->
  exists st' items', read_all fs st = Ok (map Some vs, st') /\ rinv term items' st' /\ words_of items' = more.
Proof.
  intros fs ws vs more items st G. revert items st. induction G as [|f w v fs ws vs G1 G IH]; intros items st I E.
  - exists st, items. auto.
  - cbn [app] in E. destruct (var_word _ _ _ _ _ _ _ I E G1) as (st1 & items1 & R1 & I1 & E1 & _).
    destruct (IH items1 st1 I1 E1) as (st2 & items2 & R2 & I2 & E2).
    exists st2, items2. cbn [read_all]. rewrite R1. cbn [rbind]. rewrite R2. cbn. auto.
Qed.

Lemma read_all_app fs gs st outs st' : read_all fs st = Ok (outs, st') ->
  read_all (fs ++ gs) st = (let! (o, s) := read_all gs st' in Ok (outs ++ o, s)).
Proof.
  revert st outs. induction fs as [|f fs IH]; intros st outs E; cbn [app read_all] in *.
  - injection E as <- <-. now destruct (read_all gs st) as [[o s]| |].
  - destruct (read_var f st) as [[o s]| |]; cbn [rbind] in *; try discriminate.
    destruct (read_all fs s) as [[o1 s1]| |] eqn:E1; cbn [rbind] in *; try discriminate.
    injection E as <- <-. rewrite (IH _ _ E1). now destruct (read_all gs s1) as [[o2 s2]| |].
Qed.

Lemma open_rinv items text : Forall wf_item items -> spaced (tokens_of items) text ->
  (terminated text \/ tokens_of items = []) /\ rinv true items (open_stream text) \/
  (~ terminated text /\ tokens_of items <> []) /\ rinv false items (open_stream text).
Proof.
  intros W S. destruct (open_inv _ _ S) as [[A I]|[A I]]; [left|right]; split; auto; split; auto.
Qed.

Lemma c32_words : forall items text fs ws vs more,
  Forall wf_item items -> spaced (tokens_of items) text -> words_of items = ws ++ more -> gives_all fs ws vs ->
  exists st, read_all fs (open_stream text) = Ok (map Some vs, st).
Proof.
  intros items text fs ws vs more W S E G.
  destruct (open_rinv _ _ W S) as [[_ I]|[_ I]];
    destruct (read_all_words _ _ _ _ more _ _ G I E) as (st & _ & R & _); eauto.
Qed.

Lemma c32_past_the_end : forall items text fs vs f,
  Forall wf_item items -> spaced (tokens_of items) text -> gives_all fs (words_of items) vs ->
  ((terminated text \/ tokens_of items = []) /\
   exists st, read_all (fs ++ [f]) (open_stream text) = Ok (map Some vs ++ [None], st)) \/
  (~ terminated text /\ read_all (fs ++ [f]) (open_stream text) = Crash).
Proof.
  intros items text fs vs f W S G.
  assert (E : words_of items = words_of items ++ []) by now rewrite app_nil_r.
  destruct (open_rinv _ _ W S) as [[A I]|[A I]];
    destruct (read_all_words _ _ _ _ [] _ _ G I E) as (st & items' & R & I' & E');
    rewrite (read_all_app _ [f] _ _ _ R); cbn [read_all]; unfold read_var; [left|right]; (split; [tauto|]).
  - destruct (catch_end_term _ _ f I' E') as (st' & -> & _). cbn. eauto.
  - rewrite (catch_end_open _ _ f I' E'). reflexivity.
Qed.

Lemma c32_unclosed : forall items text t ts f fs vs,
  Forall wf_item items -> spaced (tokens_of items ++ t :: ts) text -> gives_all fs (words_of items) vs ->
  starts t -> Forall (fun u => (2 <= length u)%nat /\ ~ ends u) (t :: ts) ->
  read_all (fs ++ [f]) (open_stream text) = Crash.
Proof.
  intros items text t ts f fs vs W SP G ST F.
  assert (L : Forall (fun u => (2 <= length u)%nat) (t :: ts)) by (eapply Forall_impl; [|exact F]; now intros u [? ?]).
  assert (N : Forall (fun u => ~ ends u) (t :: ts)) by (eapply Forall_impl; [|exact F]; now intros u [? ?]).
  assert (I : exists term, inv term (tokens_of items ++ t :: ts) (open_stream text)).
  { destruct (open_inv _ _ SP) as [[_ I]|[_ I]]; eauto. }
  destruct I as (term & I).
  assert (FIN : forall items fs vs st, gives_all fs (words_of items) vs -> Forall wf_item items ->
            inv term (tokens_of items ++ t :: ts) st -> read_all (fs ++ [f]) st = Crash).
  { clear -ST L N. intros items fs vs st G. remember (words_of items) as ws eqn:E. revert items st E.
    induction G as [|f0 w v fs ws vs G1 G IH]; intros items st E W I.
    - symmetry in E. apply words_none in E.
      pose proof (token_loop_word term (t :: ts) items st (S (length (rest st))) W I (Nat.lt_succ_diag_r _)) as T. rewrite E in T.
      destruct T as (st' & fuel & R & I' & LT). cbn [app read_all]. unfold read_var, read_var_catcherr. rewrite R.
      destruct fuel as [|fuel]; [lia|]. cbn [token_loop].
      destruct (next_token _ _ _ _ I') as (st2 & R2 & I2 & LT2 & _). rewrite R2. cbn [rbind].
      rewrite (proj2 (starts_iff t)) by auto. inversion L; inversion N; subst. rewrite ends_no by auto. cbn [rbind].
      unfold read_up_to_end_of_comment. rewrite (comment_unclosed term ts) by (auto; lia). reflexivity.
    - symmetry in E. destruct (words_next _ _ _ E) as (items' & Nx & E').
      pose proof (token_loop_word term (t :: ts) items st (S (length (rest st))) W I (Nat.lt_succ_diag_r _)) as T. rewrite Nx in T.
      destruct T as (st' & R & I' & LT & TK & W').
      cbn [app read_all]. unfold read_var, read_var_catcherr. rewrite R. cbn [rbind Z.eqb Pos.eqb].
      rewrite (scan_gives _ _ _ G1 TK). cbn [rbind Z.ltb Z.compare Z.eqb].
      now rewrite (IH items' st'). }
  now apply (FIN items fs vs).
Qed.

(** comparison of the expected words *)
Lemma lower_same x y : lower x = lower y <-> same_letter x y.
Proof.
  unfold lower, same_letter. 
  destruct (Z.leb_spec 65 x), (Z.leb_spec x 90), (Z.leb_spec 65 y), (Z.leb_spec y 90); cbn [andb]; lia.
Qed.
Lemma strcaseeq_iff a b : strcaseeq a b = true <-> same_word a b.
Proof.
  unfold strcaseeq, same_word. revert b. induction a as [|x a IH]; intros [|y b]; cbn.
  - split; auto. 
  - split; [easy|]. intros H. inversion H.
  - split; [easy|]. intros H. inversion H.
  - rewrite andb_true_iff, Z.eqb_eq, lower_same, IH. split.
    + intros [? ?]. now constructor.
    + intros H. now inversion H.
Qed.

Lemma expect_word term items st exp junk w ws : rinv term items st -> words_of items = w :: ws -> token w ->
  same_word exp w ->
  exists st' items', expect_str exp junk st = Ok st' /\ rinv term items' st' /\ words_of items' = ws.
Proof.
  intros I E T C.
  assert (G : gives (FStr 1024) w (VStr w)) by (constructor; apply T).
  destruct (var_word _ _ _ _ _ _ _ I E G) as (st' & items' & R & I' & E' & _).
  unfold expect_str, read_str. rewrite R. cbn [rbind]. exists st', items'.
  apply strcaseeq_iff in C. now rewrite C.
Qed.
Lemma expect_other term items st exp junk w ws : rinv term items st -> words_of items = w :: ws -> token w ->
  ~ same_word exp w -> expect_str exp junk st = Crash.
Proof.
  intros I E T C.
  assert (G : gives (FStr 1024) w (VStr w)) by (constructor; apply T).
  destruct (var_word _ _ _ _ _ _ _ I E G) as (st' & items' & R & I' & E' & _).
  unfold expect_str, read_str. rewrite R. cbn [rbind].
  destruct (strcaseeq exp w) eqn:Q; auto. apply strcaseeq_iff in Q. tauto.
Qed.

Lemma words_token items w : Forall wf_item items -> In w (words_of items) -> token w.
Proof.
  intros F. induction F as [|i items W F IH]; cbn; [easy|]. destruct i as [w'|ts]; cbn; auto.
  intros [->|H]; auto. apply W.
Qed.

Lemma read_entries_ok term : forall zs nums items st more, rinv term items st -> words_of items = nums ++ more ->
  Forall2 (fun z w => decimal z w /\ int32 z) zs nums ->
  exists st', read_entries (length zs) st = Ok (map Some zs, st').
Proof.
  intros zs nums items st more I E F. revert items st I E. induction F as [|z w zs nums [D B] F IH]; intros items st I E.
  - exists st. reflexivity.
  - cbn [app] in E. destruct (var_word _ _ _ _ _ _ _ I E (gives_int _ _ D B)) as (st1 & items1 & R1 & I1 & E1 & _).
    destruct (IH items1 st1 I1 E1) as (st2 & R2). exists st2. cbn [length read_entries]. rewrite R1. cbn [rbind].
    rewrite R2. reflexivity.
Qed.

Lemma c32_list : forall items text tag w n zs nums more junk,
  Forall wf_item items -> spaced (tokens_of items) text ->
  words_of items = w :: n :: nums ++ more -> same_word tag w ->
  decimal (Z.of_nat (length zs)) n -> int32 (Z.of_nat (length zs)) ->
  Forall2 (fun z w => decimal z w /\ int32 z) zs nums ->
  exists st, read_list_of_ints tag junk (open_stream text) = Ok (map Some zs, st).
Proof.
  intros items text tag w n zs nums more junk W S E C D B F.
  assert (T : token w) by (apply (words_token items); auto; rewrite E; now left).
  assert (I : exists term, rinv term items (open_stream text)) by (destruct (open_rinv _ _ W S) as [[_ I]|[_ I]]; eauto).
  destruct I as (term & I).
  destruct (expect_word _ _ _ _ junk _ _ I E T C) as (st1 & items1 & R1 & I1 & E1).
  destruct (var_word _ _ _ _ _ _ _ I1 E1 (gives_int _ _ D B)) as (st2 & items2 & R2 & I2 & E2 & _).
  destruct (read_entries_ok _ _ _ _ _ _ I2 E2 F) as (st3 & R3).
  exists st3. unfold read_list_of_ints, read_str_int. rewrite R1. cbn [rbind]. unfold read_int. rewrite R2. cbn [rbind].
  now rewrite Nat2Z.id.
Qed.

Lemma c32_wrong_tag : forall items text tag w ws junk,
  Forall wf_item items -> spaced (tokens_of items) text ->
  words_of items = w :: ws -> ~ same_word tag w ->
  read_list_of_ints tag junk (open_stream text) = Crash.
Proof.
  intros items text tag w ws junk W S E C.
  assert (T : token w) by (apply (words_token items); auto; rewrite E; now left).
  assert (I : exists term, rinv term items (open_stream text)) by (destruct (open_rinv _ _ W S) as [[_ I]|[_ I]]; eauto).
  destruct I as (term & I).
  unfold read_list_of_ints, read_str_int. now rewrite (expect_other _ _ _ _ _ _ _ I E T C).
Qed.

(** C33 *)
Lemma listZ_eqb_iff a b : listZ_eqb a b = true <-> a = b.
Proof.
  revert b. induction a as [|x a IH]; intros [|y b]; cbn; try easy.
  rewrite andb_true_iff, Z.eqb_eq, IH. split; [intros [-> ->]; auto|]. intros [= -> ->]. auto.
Qed.
Lemma find_param_in tag ps : In tag (map fst ps) -> exists v, find_param tag ps = Some v.
Proof.
  induction ps as [|(n & v) ps IH]; cbn; [easy|]. intros H. destruct (listZ_eqb tag n) eqn:E; eauto.
  apply IH. destruct H as [->|H]; auto. assert (listZ_eqb tag tag = true) by now apply listZ_eqb_iff. congruence.
Qed.
Lemma find_param_notin tag ps : ~ In tag (map fst ps) -> find_param tag ps = None.
Proof.
  induction ps as [|(n & v) ps IH]; cbn; auto. intros H. destruct (listZ_eqb tag n) eqn:E.
  - apply listZ_eqb_iff in E. subst. tauto.
  - apply IH. tauto.
Qed.
Lemma assign_cons n z m v ps : assign n z ((m, v) :: ps) = (if list_eq_dec Z.eq_dec m n then (m, z) else (m, v)) :: assign n z ps.
Proof. reflexivity. Qed.
Lemma assign_notin n z ps : ~ In n (map fst ps) -> assign n z ps = ps.
Proof.
  induction ps as [|(m & v) ps IH]; auto. intros H. cbn [map fst In] in H. rewrite assign_cons.
  destruct (list_eq_dec Z.eq_dec m n) as [->|N]; [tauto|]. f_equal. apply IH. tauto.
Qed.
Lemma set_param_assign n z ps : NoDup (map fst ps) -> set_param n z ps = assign n z ps.
Proof.
  induction ps as [|(m & v) ps IH]; auto. intros D. cbn [map fst] in D. inversion D; subst. rewrite assign_cons. cbn [set_param].
  destruct (listZ_eqb n m) eqn:E.
  - apply listZ_eqb_iff in E. subst. destruct (list_eq_dec Z.eq_dec m m); [|easy]. f_equal. symmetry. now apply assign_notin.
  - destruct (list_eq_dec Z.eq_dec m n) as [->|N]; [|now rewrite IH].
    assert (listZ_eqb n n = true) by now apply listZ_eqb_iff. congruence.
Qed.
Lemma assign_names n z ps : map fst (assign n z ps) = map fst ps.
Proof.
  induction ps as [|(m & v) ps IH]; auto. rewrite assign_cons. cbn [map]. rewrite IH. now destruct (list_eq_dec Z.eq_dec m n).
Qed.
Lemma ignoring_iff ps : NoDup (map fst ps) ->
  ignoring ps = existsb (fun e => if list_eq_dec Z.eq_dec (fst e) ignore_name then negb (snd e =? 0) else false) ps.
Proof.
  unfold ignoring. induction ps as [|(m & v) ps IH]; cbn [find_param existsb fst snd map]; auto. intros D. inversion D; subst.
  destruct (listZ_eqb ignore_name m) eqn:E.
  - apply listZ_eqb_iff in E. subst m. destruct (list_eq_dec Z.eq_dec ignore_name ignore_name); [|easy].
    destruct (negb (v =? 0)); auto. cbn. rewrite <- IH by auto. now rewrite find_param_notin.
  - destruct (list_eq_dec Z.eq_dec m ignore_name) as [->|N]; [|cbn; auto].
    assert (listZ_eqb ignore_name ignore_name = true) by now apply listZ_eqb_iff. congruence.
Qed.

Lemma says_assign ps n z e ws : says (assign n z ps) e ws <-> says ps e ws.
Proof. unfold says. now rewrite assign_names. Qed.

Lemma says_all ps n z es wss : Forall2 (says ps) es wss -> Forall2 (says (assign n z ps)) es wss.
Proof. induction 1; constructor; auto. now apply says_assign. Qed.

Lemma config_ok : forall es wss ps items st fuel, rinv true items st -> Forall2 (says ps) es wss ->
  words_of items = concat wss -> NoDup (map fst ps) -> (length (rest st) < fuel)%nat ->
  config_loop fuel ps st = match meaning ignore_name ps es with Some ps' => Ok ps' | None => Crash end.
Proof.
  induction es as [|e es IH]; intros wss ps items st fuel I F E D L; (destruct fuel as [|fuel]; [lia|]);
    inversion F as [|? ws ? wss' Se F' E1 E2]; subst; cbn [concat] in E.
  - destruct (catch_end_term _ _ (FStr 100) I E) as (st' & R & _). cbn [config_loop]. rewrite R. reflexivity.
  - cbn [config_loop meaning]. destruct e as [n z|n w].
    + destruct Se as (Hin & Ln & Bz & w & Dz & ->). cbn [app] in E.
      assert (G : gives (FStr 100) n (VStr n)) by now constructor.
      destruct (catch_word _ _ _ _ _ _ _ I E G) as (st1 & items1 & R1 & I1 & E1 & L1). rewrite R1. cbn [rbind].
      destruct (find_param_in _ _ Hin) as (old & ->).
      destruct (var_word _ _ _ _ _ _ _ I1 E1 (gives_int _ _ Dz Bz)) as (st2 & items2 & R2 & I2 & E2 & L2).
      unfold read_int. rewrite R2. cbn [rbind Z.eqb Pos.eqb]. rewrite set_param_assign by auto.
      apply (IH wss' _ items2); auto; try lia.
      * now apply says_all.
      * now rewrite assign_names.
    + destruct Se as (Hin & Ln & Lw & ->). cbn [app] in E.
      assert (G : gives (FStr 100) n (VStr n)) by now constructor.
      destruct (catch_word _ _ _ _ _ _ _ I E G) as (st1 & items1 & R1 & I1 & E1 & L1). rewrite R1. cbn [rbind].
      rewrite find_param_notin, ignoring_iff by auto.
      destruct (existsb _ ps); [|reflexivity].
      assert (G2 : gives (FStr 100) w (VStr w)) by now constructor.
      destruct (catch_word _ _ _ _ _ _ _ I1 E1 G2) as (st2 & items2 & R2 & I2 & E2 & L2). rewrite R2. cbn [rbind Z.eqb Pos.eqb].
      apply (IH wss' _ items2); auto; lia.
Qed.

Lemma config_open : forall es wss ps items st fuel, rinv false items st -> Forall2 (says ps) es wss ->
  words_of items = concat wss -> NoDup (map fst ps) -> (length (rest st) < fuel)%nat ->
  config_loop fuel ps st = Crash.
Proof.
  induction es as [|e es IH]; intros wss ps items st fuel I F E D L; (destruct fuel as [|fuel]; [lia|]);
    inversion F as [|? ws ? wss' Se F' E1 E2]; subst; cbn [concat] in E.
  - cbn [config_loop]. now rewrite (catch_end_open _ _ (FStr 100) I E).
  - cbn [config_loop]. destruct e as [n z|n w].
    + destruct Se as (Hin & Ln & Bz & w & Dz & ->). cbn [app] in E.
      assert (G : gives (FStr 100) n (VStr n)) by now constructor.
      destruct (catch_word _ _ _ _ _ _ _ I E G) as (st1 & items1 & R1 & I1 & E1 & L1). rewrite R1. cbn [rbind].
      destruct (find_param_in _ _ Hin) as (old & ->).
      destruct (var_word _ _ _ _ _ _ _ I1 E1 (gives_int _ _ Dz Bz)) as (st2 & items2 & R2 & I2 & E2 & L2).
      unfold read_int. rewrite R2. cbn [rbind Z.eqb Pos.eqb]. rewrite set_param_assign by auto.
      apply (IH wss' _ items2); auto; try lia.
      * now apply says_all.
      * now rewrite assign_names.
    + destruct Se as (Hin & Ln & Lw & ->). cbn [app] in E.
      assert (G : gives (FStr 100) n (VStr n)) by now constructor.
      destruct (catch_word _ _ _ _ _ _ _ I E G) as (st1 & items1 & R1 & I1 & E1 & L1). rewrite R1. cbn [rbind].
      rewrite find_param_notin by auto. destruct (ignoring ps); [|reflexivity].
      assert (G2 : gives (FStr 100) w (VStr w)) by now constructor.
      destruct (catch_word _ _ _ _ _ _ _ I1 E1 G2) as (st2 & items2 & R2 & I2 & E2 & L2). rewrite R2. cbn [rbind Z.eqb Pos.eqb].
      apply (IH wss' _ items2); auto; lia.
Qed.

(** a name with nothing after it *)
Lemma config_missing : forall es wss ps items st fuel n, rinv true items st -> Forall2 (says ps) es wss ->
  words_of items = concat wss ++ [n] -> (length n < 100)%nat -> NoDup (map fst ps) -> (length (rest st) < fuel)%nat ->
  config_loop fuel ps st = Crash.
Proof.
  induction es as [|e es IH]; intros wss ps items st fuel n0 I F E Ln0 D L; (destruct fuel as [|fuel]; [lia|]);
    inversion F as [|? ws ? wss' Se F' E1 E2]; subst; cbn [concat] in E.
  - cbn [app] in E.
    assert (G : gives (FStr 100) n0 (VStr n0)) by now constructor.
    destruct (catch_word _ _ _ _ _ _ _ I E G) as (st1 & items1 & R1 & I1 & E1 & L1).
    cbn [config_loop]. rewrite R1. cbn [rbind].
    assert (C : forall s q, eof s = true -> config_loop fuel q s = Undef \/ config_loop fuel q s = Crash).
    { intros s q H. destruct fuel; [now left|]. right. cbn [config_loop]. unfold read_var_catcherr. cbn [token_loop].
      unfold read_next_token. now rewrite H. }
    assert (Fu : (0 < fuel)%nat) by lia.
    assert (C' : forall s q, eof s = true -> config_loop fuel q s = Crash).
    { intros s q H. destruct fuel; [lia|]. cbn [config_loop]. unfold read_var_catcherr. cbn [token_loop].
      unfold read_next_token. now rewrite H. }
    destruct (find_param n0 ps) as [old|].
    + destruct (catch_end_term _ _ FInt I1 E1) as (st2 & R2 & E2). unfold read_int, read_var. rewrite R2. cbn [rbind Z.eqb Pos.eqb].
      now apply C'.
    + destruct (ignoring ps); [|reflexivity].
      destruct (catch_end_term _ _ (FStr 100) I1 E1) as (st2 & R2 & E2). rewrite R2. cbn [rbind Z.eqb Pos.eqb]. now apply C'.
  - rewrite <- app_assoc in E. cbn [config_loop]. destruct e as [n z|n w].
    + destruct Se as (Hin & Ln & Bz & w & Dz & ->). cbn [app] in E.
      assert (G : gives (FStr 100) n (VStr n)) by now constructor.
      destruct (catch_word _ _ _ _ _ _ _ I E G) as (st1 & items1 & R1 & I1 & E1 & L1). rewrite R1. cbn [rbind].
      destruct (find_param_in _ _ Hin) as (old & ->).
      destruct (var_word _ _ _ _ _ _ _ I1 E1 (gives_int _ _ Dz Bz)) as (st2 & items2 & R2 & I2 & E2 & L2).
      unfold read_int. rewrite R2. cbn [rbind Z.eqb Pos.eqb]. rewrite set_param_assign by auto.
      apply (IH wss' _ items2 _ _ n0); auto; try lia.
      * now apply says_all.
      * now rewrite assign_names.
    + destruct Se as (Hin & Ln & Lw & ->). cbn [app] in E.
      assert (G : gives (FStr 100) n (VStr n)) by now constructor.
      destruct (catch_word _ _ _ _ _ _ _ I E G) as (st1 & items1 & R1 & I1 & E1 & L1). rewrite R1. cbn [rbind].
      rewrite find_param_notin by auto. destruct (ignoring ps); [|reflexivity].
      assert (G2 : gives (FStr 100) w (VStr w)) by now constructor.
      destruct (catch_word _ _ _ _ _ _ _ I1 E1 G2) as (st2 & items2 & R2 & I2 & E2 & L2). rewrite R2. cbn [rbind Z.eqb Pos.eqb].
      apply (IH wss' _ items2 _ _ n0); auto; lia.
Qed.

Lemma c33_config : forall items text ps es wss,
  Forall wf_item items -> spaced (tokens_of items) text -> terminated text ->
  Forall2 (says ps) es wss -> words_of items = concat wss -> NoDup (map fst ps) ->
  read_nissa_config_file (Some text) ps =
  match meaning ignore_name ps es with Some ps' => Ok ps' | None => Crash end.
Proof.
  intros items text ps es wss W S T F E D.
  destruct (open_rinv _ _ W S) as [[_ I]|[[N _] _]]; [|tauto].
  unfold read_nissa_config_file. eapply config_ok; eauto; cbn; lia.
Qed.
Lemma c33_unterminated : forall items text ps es wss,
  Forall wf_item items -> spaced (tokens_of items) text -> ~ terminated text -> tokens_of items <> [] ->
  Forall2 (says ps) es wss -> words_of items = concat wss -> NoDup (map fst ps) ->
  read_nissa_config_file (Some text) ps = Crash.
Proof.
  intros items text ps es wss W S T NE F E D.
  destruct (open_rinv _ _ W S) as [[[N|N] _]|[_ I]]; [tauto|tauto|].
  unfold read_nissa_config_file. eapply config_open; eauto; cbn; lia.
Qed.
Lemma c33_missing : forall items text ps es wss n,
  Forall wf_item items -> spaced (tokens_of items) text -> terminated text ->
  Forall2 (says ps) es wss -> words_of items = concat wss ++ [n] -> (length n < 100)%nat -> NoDup (map fst ps) ->
  read_nissa_config_file (Some text) ps = Crash.
Proof.
  intros items text ps es wss n W S T F E Ln D.
  destruct (open_rinv _ _ W S) as [[_ I]|[[N _] _]]; [|tauto].
  unfold read_nissa_config_file. eapply config_missing; eauto; cbn; lia.
Qed.

(** C62 *)
Lemma close_after i s q : current i = Some s -> stack i = q ->
  close_input i = Ok (match rev q with [] => mkInputs None [] | t :: r => mkInputs (Some t) (rev r) end).
Proof. intros C S. unfold close_input. rewrite C, S. now destruct (rev q). Qed.

Lemma balanced_keeps i j : balanced i j -> forall s, current i = Some s -> stack j = stack i /\ exists t, current j = Some t.
Proof.
  induction 1 as [i|s s' q k B IH|c i j k l B IH C B2 IH2]; intros s0 E.
  - eauto.
  - destruct (IH s' eq_refl) as (A & T). auto.
  - destruct (IH (open_stream c) eq_refl) as (A & t & T). cbn in A. rewrite E in A.
    rewrite (close_after _ _ _ T A), rev_app_distr in C. cbn in C. rewrite rev_involutive in C. injection C as <-.
    destruct (IH2 s0 eq_refl) as (A2 & T2). auto.
Qed.

Lemma c62_restores c i j : balanced (open_input c i) j ->
  match current i with
  | Some s => close_input j = Ok (mkInputs (Some s) (stack i))
  | None => stack i = [] -> close_input j = Ok (mkInputs None [])
  end.
Proof.
  intros B. destruct (balanced_keeps _ _ B (open_stream c) eq_refl) as (A & t & T). cbn in A.
  destruct (current i) as [s|].
  - rewrite (close_after _ _ _ T A), rev_app_distr. cbn. now rewrite rev_involutive.
  - intros N. rewrite N in A. now rewrite (close_after _ _ _ T A).
Qed.
