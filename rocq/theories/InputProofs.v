From Verif Require Import Base Base MemModel ChecksumTextModel Ran2TextModel Ran2TextProofs InputModel InputSpec.
Open Scope Z_scope.
Local Notation length := List.length.

Lemma is_space_iff c : is_space c = true <-> space c.
Proof. unfold is_space, space. rewrite orb_true_iff, andb_true_iff, Z.eqb_eq, !Z.leb_le. tauto. Qed.
Lemma is_space_false c : ~ space c -> is_space c = false.
Proof. intros H. destruct (is_space c) eqn:E; auto. apply is_space_iff in E. tauto. Qed.

Lemma skip_spaces s t : Forall space s -> skip_space (s ++ t) = skip_space t.
Proof.
  induction 1 as [|c s Hc Hs IH]; cbn; auto. apply is_space_iff in Hc. now rewrite Hc.
Qed.

Definition bound (t : list Z) : Prop := t = [] \/ exists c r, t = c :: r /\ space c.

Lemma take_tok t r : Forall (fun c => ~ space c) t -> bound r -> take_word (t ++ r) = t.
Proof.
  intros H B. induction H as [|c t Hc Ht IH]; cbn.
  - destruct B as [->|(c & q & -> & Hc)]; auto. cbn. apply is_space_iff in Hc. now rewrite Hc.
  - rewrite is_space_false by auto. now rewrite IH.
Qed.
Lemma drop_tok t r : Forall (fun c => ~ space c) t -> bound r -> drop_word (t ++ r) = r.
Proof.
  intros H B. induction H as [|c t Hc Ht IH]; cbn.
  - destruct B as [->|(c & q & -> & Hc)]; auto. cbn. apply is_space_iff in Hc. now rewrite Hc.
  - now rewrite is_space_false by auto.
Qed.

(** the state of the stream when the tokens [ts] are still to come; [term]: the text ends with white space *)
Definition inv (term : bool) (ts : list (list Z)) (st : stream) : Prop :=
  if term then eof st = false /\ spaced ts (rest st) /\ (ts = [] \/ terminated (rest st))
  else match ts with
       | [] => eof st = true
       | _ => eof st = false /\ spaced ts (rest st) /\ ~ terminated (rest st)
       end.

Lemma spaced_bound ts text : spaced ts text -> text = [] -> ts = [].
Proof.
  intros H. destruct H; auto. intros E. apply app_eq_nil in E. destruct E as [_ E]. apply app_eq_nil in E.
  destruct H0 as (N & _). tauto.
Qed.

Lemma terminated_app a b : b <> [] -> terminated (a ++ b) <-> terminated b.
Proof.
  intros N. destruct (exists_last N) as (b' & c & ->). split.
  - intros (r & d & E & S). exists b', c. split; auto. rewrite app_assoc in E. apply app_inj_tail in E. destruct E as [_ ->]. auto.
  - intros (r & d & E & S). apply app_inj_tail in E. destruct E as [-> ->]. exists (a ++ r), d. now rewrite app_assoc.
Qed.

Lemma token_not_terminated s t : token t -> ~ terminated (s ++ t).
Proof.
  intros (N & F & _) H. rewrite terminated_app in H by auto. destruct H as (r & c & -> & S).
  rewrite Forall_forall in F. apply (F c); auto. apply in_app_iff. right. now left.
Qed.

Lemma spaces_terminated s : s <> [] -> Forall space s -> terminated s.
Proof.
  intros N F. destruct (exists_last N) as (r & c & ->). exists r, c. split; auto.
  rewrite Forall_forall in F. apply F. apply in_app_iff. right. now left.
Qed.

Lemma next_token term t ts st : inv term (t :: ts) st ->
  exists st', read_next_token st = Ok (1, t, st') /\ inv term ts st' /\ (length (rest st') < length (rest st))%nat /\ token t.
Proof.
  intros I.
  assert (E : eof st = false) by (destruct term; now destruct I).
  assert (SP : spaced (t :: ts) (rest st)) by (destruct term; now destruct I as (_ & I & _)).
  inversion SP as [|s t0 ts0 text Hs Ht Hts HB E1 E2]; subst.
  unfold read_next_token. rewrite E. unfold fscanf_s. rewrite <- E2, skip_spaces by auto.
  destruct Ht as (Tn & Tf & Tl). destruct t as [|c t]; [easy|].
  assert (SK : skip_space ((c :: t) ++ text) = (c :: t) ++ text).
  { cbn. rewrite is_space_false; auto. now inversion Tf. }
  rewrite SK. rewrite take_tok, drop_tok by auto. cbn [app].
  replace (1024 <=? length (c :: t))%nat with false by (symmetry; apply Nat.leb_gt; exact Tl).
  eexists. split; [reflexivity|]. split; [|split].
  - destruct term; cbn [inv eof rest].
    + destruct I as (_ & _ & [I|I]); [easy|].
      assert (NT : text <> []).
      { intros ->. rewrite <- E2, app_nil_r in I. now apply token_not_terminated in I. }
      split; [now destruct text|]. split; auto. right.
      rewrite <- E2, app_assoc in I. now rewrite terminated_app in I.
    + destruct I as (_ & _ & I). destruct ts as [|u ts].
      * cbn. destruct text as [|d text]; auto. exfalso. apply I. rewrite <- E2, app_assoc.
        apply terminated_app; [easy|]. inversion Hts; subst. now apply spaces_terminated.
      * cbn. assert (NT : text <> []) by (intros ->; apply spaced_bound in Hts; easy).
        split; [now destruct text|]. split; auto. intros T. apply I. rewrite <- E2, app_assoc.
        now apply terminated_app.
  - cbn [rest]. rewrite !app_length. cbn [length]. rewrite app_length. lia.
  - repeat split; auto.
Qed.

Lemma no_token_term st : inv true [] st -> exists st', read_next_token st = Ok (-1, [], st').
Proof.
  intros (E & S & _). unfold read_next_token. rewrite E. unfold fscanf_s. inversion S; subst.
  rewrite <- (app_nil_r (rest st)), skip_spaces by auto. cbn. eauto.
Qed.
Lemma no_token_open st : inv false [] st -> read_next_token st = Crash.
Proof. cbn. intros E. unfold read_next_token. now rewrite E. Qed.

Lemma starts_iff t : check_tok_starts_comment t = true <-> starts t.
Proof.
  unfold starts. destruct t as [|a [|b t]]; cbn.
  - split; [easy|]. now intros (r & E).
  - split; [easy|]. now intros (r & E).
  - rewrite andb_true_iff, !Z.eqb_eq. split.
    + intros [-> ->]. eauto.
    + intros (r & E). injection E as -> -> _. auto.
Qed.
Lemma starts_false t : ~ starts t -> check_tok_starts_comment t = false.
Proof. intros H. destruct (check_tok_starts_comment t) eqn:E; auto. apply starts_iff in E. tauto. Qed.

Lemma ends_ok t : (2 <= length t)%nat -> exists e, check_tok_ends_comment t = Ok e /\ (e = true <-> ends t).
Proof.
  intros L. unfold check_tok_ends_comment, ends.
  replace (length t <? 2)%nat with false by (symmetry; apply Nat.ltb_ge; lia).
  set (p := firstn (length t - 2) t). set (q := skipn (length t - 2) t).
  assert (E : t = p ++ q) by (symmetry; apply firstn_skipn).
  assert (Lq : length q = 2%nat) by (unfold q; rewrite skipn_length; lia).
  destruct q as [|a [|b [|? ?]]]; try easy.
  eexists. split; [reflexivity|]. rewrite andb_true_iff, !Z.eqb_eq. split.
  - intros [-> ->]. eauto.
  - intros (r & H). rewrite E in H.
    change [a; b] with ([a] ++ [b]) in H. change [42; 47] with ([42] ++ [47]) in H. rewrite !app_assoc in H.
    apply app_inj_tail in H. destruct H as [H ->]. apply app_inj_tail in H. destruct H as [_ ->]. auto.
Qed.
Lemma ends_yes t : (2 <= length t)%nat -> ends t -> check_tok_ends_comment t = Ok true.
Proof. intros L H. destruct (ends_ok t L) as (e & -> & I). apply I in H. now subst. Qed.
Lemma ends_no t : (2 <= length t)%nat -> ~ ends t -> check_tok_ends_comment t = Ok false.
Proof. intros L H. destruct (ends_ok t L) as (e & -> & I). destruct e; auto. tauto. Qed.

Lemma comment_skip term : forall ts t more st fuel, inv term (ts ++ t :: more) st ->
  Forall (fun u => (2 <= length u)%nat) (ts ++ [t]) -> Forall (fun u => ~ ends u) ts -> ends t ->
  (length (rest st) < fuel)%nat ->
  exists st', comment_loop fuel st = Ok st' /\ inv term more st' /\ (length (rest st') < length (rest st))%nat.
Proof.
  induction ts as [|u ts IH]; intros t more st fuel I L N E F; (destruct fuel as [|fuel]; [lia|]).
  - cbn [app] in I. destruct (next_token _ _ _ _ I) as (st' & R & I' & LT & _).
    cbn [comment_loop]. rewrite R. cbn [rbind negb Z.eqb Pos.eqb].
    inversion L; subst. rewrite ends_yes by auto. cbn. eauto.
  - cbn [app] in I. destruct (next_token _ _ _ _ I) as (st' & R & I' & LT & _).
    cbn [comment_loop]. rewrite R. cbn [rbind negb Z.eqb Pos.eqb].
    inversion L; inversion N; subst. rewrite ends_no by auto. cbn [rbind].
    destruct (IH t more st' fuel I') as (st2 & R2 & I2 & LT2); auto; [lia|].
    exists st2. repeat split; auto; lia.
Qed.

(** an unclosed comment aborts *)
Lemma comment_unclosed term : forall ts st fuel, inv term ts st ->
  Forall (fun u => (2 <= length u)%nat) ts -> Forall (fun u => ~ ends u) ts ->
  (length (rest st) < fuel)%nat -> comment_loop fuel st = Crash.
Proof.
  induction ts as [|u ts IH]; intros st fuel I L N F; (destruct fuel as [|fuel]; [lia|]); cbn [comment_loop].
  - destruct term.
    + destruct (no_token_term _ I) as (st' & ->). reflexivity.
    + now rewrite no_token_open.
  - destruct (next_token _ _ _ _ I) as (st' & R & I' & LT & _). rewrite R. cbn [rbind negb Z.eqb Pos.eqb].
    inversion L; inversion N; subst. rewrite ends_no by auto. cbn [rbind]. apply IH; auto. lia.
Qed.

(** the first word, after the comments *)
Fixpoint next_word (l : list item) : option (list Z * list item) :=
  match l with [] => None | Word w :: r => Some (w, r) | Comment _ :: r => next_word r end.

Lemma skip_one_comment term : forall ts items more st fuel,
  wf_item (Comment ts) -> inv term (ts ++ more) st -> (length (rest st) < fuel)%nat ->
  exists st' , token_loop fuel st = token_loop (pred fuel) st' /\ inv term more st' /\
    (length (rest st') < length (rest st))%nat /\ tokens_of items = tokens_of items.
Proof.
  intros ts items more st fuel (CT & ts' & t & -> & E & N & S) I F.
  destruct fuel as [|fuel]; [lia|]. cbn [token_loop pred].
  assert (L : Forall (fun u => (2 <= length u)%nat) (ts' ++ [t])).
  { eapply Forall_impl; [|exact CT]. intros u [_ H]. exact H. }
  destruct ts' as [|u ts'].
  - cbn [app] in *. destruct (next_token _ _ _ _ I) as (st' & R & I' & LT & _). rewrite R. cbn [rbind].
    cbn in S. rewrite (proj2 (starts_iff t)) by auto. inversion L; subst. rewrite ends_yes by auto. cbn [rbind].
    exists st'. auto.
  - cbn [app] in *. destruct (next_token _ _ _ _ I) as (st' & R & I' & LT & _). rewrite R. cbn [rbind].
    cbn in S. rewrite (proj2 (starts_iff u)) by auto. inversion L; inversion N; subst.
    rewrite ends_no by auto. cbn [rbind]. rewrite <- app_assoc in I'. cbn [app] in I'.
    destruct (comment_skip term ts' t more st' (Datatypes.S (length (rest st'))) I') as (st2 & R2 & I2 & LT2); auto.
    unfold read_up_to_end_of_comment. rewrite R2. cbn [rbind]. exists st2. repeat split; auto; lia.
Qed.

Lemma token_loop_word term extra : forall items st fuel,
  Forall wf_item items -> inv term (tokens_of items ++ extra) st -> (length (rest st) < fuel)%nat ->
  match next_word items with
  | Some (w, items') =>
      exists st', token_loop fuel st = Ok (1, w, st') /\ inv term (tokens_of items' ++ extra) st' /\
                  (length (rest st') < length (rest st))%nat /\ token w /\ Forall wf_item items'
  | None => exists st' fuel', token_loop fuel st = token_loop fuel' st' /\ inv term extra st' /\
                              (length (rest st') < fuel')%nat
  end.
Proof.
  induction items as [|i items IH]; intros st fuel W I F; cbn [next_word].
  - exists st, fuel. auto.
  - inversion W as [|? ? Wi W']; subst. destruct i as [w|ts].
    + cbn [tokens_of flat_map app] in I. fold (tokens_of items) in I.
      destruct (next_token _ _ _ _ I) as (st' & R & I' & LT & TK).
      destruct fuel as [|fuel]; [lia|]. cbn [token_loop]. rewrite R. cbn [rbind].
      destruct Wi as [_ NS]. rewrite starts_false by auto. exists st'. auto.
    + cbn [tokens_of flat_map] in I. fold (tokens_of items) in I. rewrite <- app_assoc in I.
      destruct (skip_one_comment term ts items _ st fuel Wi I F) as (st' & R & I' & LT & _).
      assert (F' : (length (rest st') < pred fuel)%nat) by lia.
      specialize (IH st' (pred fuel) W' I' F').
      destruct (next_word items) as [(w & items')|].
      * destruct IH as (st2 & R2 & I2 & LT2 & TK & W2). exists st2. rewrite R. repeat split; auto; try lia; apply TK.
      * destruct IH as (st2 & fuel2 & R2 & I2 & LT2). exists st2, fuel2. rewrite R. auto.
Qed.

Lemma open_inv ts text : spaced ts text ->
  (terminated text \/ ts = []) /\ inv true ts (open_stream text) \/ (~ terminated text /\ ts <> []) /\ inv false ts (open_stream text).
Proof.
  intros S.
  assert (D : terminated text \/ ~ terminated text).
  { destruct (list_eq_dec Z.eq_dec text []) as [->|N].
    - right. intros (r & c & E & _). now destruct r.
    - destruct (exists_last N) as (r & c & ->). destruct (is_space c) eqn:E.
      + apply is_space_iff in E. left. exists r, c. auto.
      + right. intros (r' & c' & E' & S'). apply app_inj_tail in E'. destruct E' as [_ ->]. apply is_space_iff in S'. congruence. }
  destruct ts as [|t ts]; [left; split; auto; cbn; auto|].
  destruct D as [D|D]; [left|right]; (split; [auto|cbn; auto]). split; auto. easy.
Qed.

Lemma next_words items : match next_word items with
  | Some (w, items') => words_of items = w :: words_of items'
  | None => words_of items = [] end.
Proof. induction items as [|[w|ts] items IH]; cbn; auto. Qed.

Lemma sscanf_s_tok w : token w -> sscanf_s w = Some w.
Proof.
  intros (N & F & _). unfold sscanf_s. destruct w as [|c w]; [easy|].
  assert (SK : skip_space (c :: w) = c :: w) by (cbn; rewrite is_space_false; auto; now inversion F).
  rewrite SK. rewrite <- (app_nil_r (c :: w)) at 1. rewrite take_tok; auto. now left.
Qed.

Lemma read_dec_value : forall ds acc, Forall (fun c => 48 <= c <= 57) ds ->
  read_dec ds acc = fold_left (fun v c => 10 * v + (c - 48)) ds acc.
Proof.
  intros ds acc F. revert acc. induction F as [|c ds Hc Hd IH]; intros acc; cbn [read_dec fold_left]; auto.
  unfold dec_value. replace ((48 <=? c) && (c <=? 57)) with true by (symmetry; apply andb_true_iff; lia).
  rewrite IH. f_equal. lia.
Qed.

Lemma wrap32_id z : int32 z -> Base.wrap32 z = z.
Proof.
  unfold int32. intros H. unfold Base.wrap32, int_min.
  change (2 ^ 31) with 2147483648 in H. Z.to_euclidean_division_equations; lia.
Qed.

Lemma scan_decimal z w : decimal z w -> int32 z -> sscanf_d w = Some z.
Proof.
  intros (neg & ds & -> & N & F & Ez) HZ. unfold sscanf_d.
  destruct ds as [|c ds]; [easy|]. assert (Hc : 48 <= c <= 57) by now inversion F.
  assert (NS : is_space c = false) by (apply is_space_false; unfold space; lia).
  assert (DV : dec_value c = Some (c - 48)).
  { unfold dec_value. replace ((48 <=? c) && (c <=? 57)) with true; [reflexivity|symmetry; apply andb_true_iff; lia]. }
  assert (RD : read_dec (c :: ds) 0 = digits_value (c :: ds)) by (rewrite read_dec_value by auto; reflexivity).
  destruct neg; cbn [app skip_space].
  - replace (is_space 45) with false by reflexivity. cbn [drop_sign Z.eqb Pos.eqb].
    rewrite DV, RD. rewrite <- Ez. now rewrite wrap32_id.
  - rewrite NS. cbn [drop_sign].
    replace (c =? 45) with false by (symmetry; apply Z.eqb_neq; lia).
    replace (c =? 43) with false by (symmetry; apply Z.eqb_neq; lia).
    rewrite DV, RD. rewrite <- Ez. now rewrite wrap32_id.
Qed.
