From Coq Require Import Reals.
From Verif Require Import Base GeometryModel Ran2Model IldgFileModel ChecksumTextModel Ran2TextModel.
Open Scope Z_scope.
Local Notation length := List.length.

Definition is_digit (c : Z) : Prop := 48 <= c <= 57.
Lemma dec_value_digit c : is_digit c -> dec_value c = Some (c - 48).
Proof. intros H. unfold dec_value, is_digit in *. now replace ((48 <=? c) && (c <=? 57)) with true by lia. Qed.

Lemma dec_all k : forall n, 0 <= n -> Forall is_digit (dec_digits k n).
Proof.
  induction k as [|k IH]; intros n Hn; cbn [dec_digits]; [constructor|]. apply Forall_app. split.
  - destruct (n <? 10); [constructor|]. apply IH. apply Z.div_pos; lia.
  - constructor; [|constructor]. unfold is_digit. pose proof (Z.mod_pos_bound n 10 ltac:(lia)). lia.
Qed.
Lemma dec_len k : forall n, (length (dec_digits k n) <= k)%nat.
Proof.
  induction k as [|k IH]; intros n; cbn [dec_digits]; [cbn; lia|]. rewrite app_length. cbn [List.length].
  destruct (n <? 10); cbn [List.length]; [lia|]. specialize (IH (n / 10)). lia.
Qed.
Lemma dec_cons k n : exists c r, dec_digits (S k) n = c :: r.
Proof.
  cbn [dec_digits]. destruct (if n <? 10 then [] else dec_digits k (n / 10)) as [|c r]; cbn [app]; eauto.
Qed.
Lemma read_dec_app a : forall b acc, Forall is_digit a -> read_dec (a ++ b) acc = read_dec b (read_dec a acc).
Proof.
  induction a as [|c a IH]; intros b acc H; [reflexivity|]. inversion H as [|? ? Hc Ha]; subst.
  cbn [app read_dec]. rewrite dec_value_digit by assumption. now apply IH.
Qed.
Lemma read_digits_dec k : forall n, 0 <= n < 10 ^ Z.of_nat k -> read_dec (dec_digits k n) 0 = n.
Proof.
  induction k as [|k IH]; intros n Hn; [cbn in *; lia|]. cbn [dec_digits].
  assert (Hd : 0 <= n / 10) by (apply Z.div_pos; lia).
  rewrite read_dec_app by (destruct (n <? 10); [constructor|now apply dec_all]).
  pose proof (Z.mod_pos_bound n 10 ltac:(lia)) as Hm. pose proof (Z.div_mod n 10 ltac:(lia)) as Hdm.
  cbn [read_dec]. rewrite dec_value_digit by (unfold is_digit; lia).
  destruct (Z.ltb_spec n 10).
  - cbn [read_dec]. rewrite Z.mod_small by lia. lia.
  - rewrite IH; [lia|]. rewrite Nat2Z.inj_succ, Z.pow_succ_r in Hn by lia. lia.
Qed.

Definition word_char (c : Z) : Prop := 45 <= c <= 57.
Lemma word_char_space c : word_char c -> is_space c = false.
Proof. unfold word_char, is_space. lia. Qed.
Lemma print_word z : Forall word_char (print_d z).
Proof.
  assert (H : forall n, 0 <= n -> Forall word_char (dec_digits 10 n)).
  { intros n Hn. eapply Forall_impl; [|now apply dec_all]. unfold is_digit, word_char. cbn. lia. }
  unfold print_d. destruct (Z.ltb_spec z 0); [constructor; [unfold word_char; lia|]|]; apply H; lia.
Qed.
Lemma print_len z : (1 <= length (print_d z) <= 11)%nat.
Proof.
  unfold print_d. destruct (z <? 0).
  - cbn [List.length]. pose proof (dec_len 10 (- z)). lia.
  - pose proof (dec_len 10 z). destruct (dec_cons 9 z) as (c & r & E). rewrite E in *. cbn [List.length] in *. lia.
Qed.
Lemma print_cons z : exists c r, print_d z = c :: r /\ word_char c.
Proof.
  pose proof (print_len z) as H. pose proof (print_word z) as W. destruct (print_d z) as [|c r]; [cbn in H; lia|].
  exists c, r. split; [reflexivity|]. now inversion W.
Qed.

Lemma scan_d z : in_int z = true -> sscanf_d (print_d z) = Some z.
Proof.
  intros Hz. unfold sscanf_d. destruct (print_cons z) as (c & r & E & Hc).
  assert (Es : skip_space (print_d z) = print_d z).
  { rewrite E. cbn [skip_space]. now rewrite (word_char_space c Hc). }
  rewrite Es. unfold in_int, int_min, int_max in Hz. unfold print_d. destruct (Z.ltb_spec z 0).
  - unfold drop_sign. change (45 =? 45) with true. cbv iota.
    destruct (dec_cons 9 (- z)) as (c' & r' & E'). pose proof (dec_all 10 (- z) ltac:(lia)) as A. rewrite E' in *.
    inversion A as [|? ? Hc' _]; subst. rewrite (dec_value_digit c' Hc'). rewrite <- E'. rewrite read_digits_dec by (cbn; lia).
    rewrite Z.opp_involutive. rewrite wrap32_id by (unfold in_int, int_min, int_max; lia). reflexivity.
  - destruct (dec_cons 9 z) as (c' & r' & E'). pose proof (dec_all 10 z ltac:(lia)) as A. rewrite E' in *.
    inversion A as [|? ? Hc' _]; subst. unfold drop_sign.
    replace (c' =? 45) with false by (unfold is_digit in *; lia). replace (c' =? 43) with false by (unfold is_digit in *; lia).
    rewrite (dec_value_digit c' Hc'). rewrite <- E'. rewrite read_digits_dec by (cbn; lia).
    rewrite wrap32_id by (unfold in_int, int_min, int_max; lia). reflexivity.
Qed.

Lemma take_word_app w : forall r, Forall word_char w -> (r = [] \/ exists r', r = 32 :: r') -> take_word (w ++ r) = w.
Proof.
  induction w as [|c w IH]; intros r Hw Hr.
  - destruct Hr as [->|(r' & ->)]; reflexivity.
  - inversion Hw as [|? ? Hc Hw']; subst. cbn [app take_word]. rewrite (word_char_space c Hc). f_equal. now apply IH.
Qed.

(** the text: the numbers separated by single spaces *)
Fixpoint text_of (l : list Z) : list Z :=
  match l with [] => [] | [z] => print_d z | z :: r => print_d z ++ 32 :: text_of r end.
Lemma text_of_cons z r : r <> [] -> text_of (z :: r) = print_d z ++ 32 :: text_of r.
Proof. destruct r; [congruence|reflexivity]. Qed.
Lemma text_snoc l z : l <> [] -> text_of (l ++ [z]) = text_of l ++ 32 :: print_d z.
Proof.
  induction l as [|a l IH]; [congruence|]. intros _. destruct l as [|b l]; [reflexivity|].
  rewrite <- app_comm_cons, text_of_cons by (destruct l; discriminate). rewrite IH by discriminate.
  rewrite (text_of_cons a (b :: l)) by discriminate. rewrite <- app_assoc. reflexivity.
Qed.
Lemma text_len l : (length (text_of l) <= 12 * length l)%nat.
Proof.
  induction l as [|a l IH]; [cbn; lia|]. destruct l as [|b l].
  - cbn [text_of List.length]. pose proof (print_len a). lia.
  - rewrite text_of_cons by discriminate. rewrite app_length. cbn [List.length] in *. pose proof (print_len a). lia.
Qed.

Lemma skip_first {A} (l r : list A) n : n = length l -> skipn n (l ++ r) = r.
Proof. intros ->. rewrite skipn_app, skipn_all, Nat.sub_diag. reflexivity. Qed.

Lemma read_text l : Forall (fun z => in_int z = true) l -> read_ints (length l) (text_of l) = Some l.
Proof.
  induction l as [|z l IH]; intros H; [reflexivity|]. inversion H as [|? ? Hz Hl]; subst. cbn [List.length read_ints].
  assert (Hw : sscanf_s (text_of (z :: l)) = Some (print_d z)).
  { unfold sscanf_s. destruct (print_cons z) as (c & r & E & Hc).
    assert (Ht : take_word (text_of (z :: l)) = print_d z).
    { destruct l as [|b l].
      - cbn [text_of]. rewrite <- (app_nil_r (print_d z)) at 1. apply take_word_app; [apply print_word|now left].
      - rewrite text_of_cons by discriminate. apply take_word_app; [apply print_word|right; eauto]. }
    assert (Hsk : skip_space (text_of (z :: l)) = text_of (z :: l)).
    { destruct l as [|b l]; [|rewrite text_of_cons by discriminate]; cbn [text_of]; rewrite E; cbn [app skip_space];
      now rewrite (word_char_space c Hc). }
    rewrite Hsk, Ht, E. reflexivity. }
  rewrite Hw. pose proof (print_len z) as Hlen.
  replace (20 <=? length (print_d z))%nat with false by (symmetry; apply Nat.leb_gt; lia).
  rewrite (scan_d z Hz). destruct l as [|b l].
  - reflexivity.
  - rewrite text_of_cons by discriminate.
    change (print_d z ++ 32 :: text_of (b :: l)) with (print_d z ++ ([32] ++ text_of (b :: l))).
    rewrite app_assoc, skip_first by (rewrite app_length; cbn [List.length]; lia).
    rewrite (IH Hl). reflexivity.
Qed.

Lemma gen_round g : length (iv g) = 32%nat -> gen_of_ints (gen_ints g) = g.
Proof.
  intros H. destruct g as [a b l y]. cbn [iv] in H. unfold gen_of_ints, gen_ints. cbn [idum idum2 iv iy skipn nth].
  replace (firstn RAN2_NTAB (l ++ [y])) with l.
  - f_equal. transitivity (nth 32 (l ++ [y]) 0); [reflexivity|].
    rewrite app_nth2 by lia. rewrite H. reflexivity.
  - unfold RAN2_NTAB. rewrite firstn_app, H, Nat.sub_diag. change (firstn 0 [y]) with (@nil Z).
    rewrite app_nil_r. symmetry. apply firstn_all2. lia.
Qed.

Lemma firstn_short {A} n (l : list A) : (length l <= n)%nat -> firstn n l = l.
Proof. apply firstn_all2. Qed.
Lemma firstn_snoc (l : list Z) i : (i < length l)%nat -> firstn (S i) l = firstn i l ++ [nth i l 0].
Proof.
  revert i. induction l as [|a l IH]; intros i Hi; [cbn in Hi; lia|]. destruct i as [|i]; [reflexivity|].
  cbn [firstn nth app]. f_equal. apply IH. cbn in Hi. lia.
Qed.

Lemma write_text (p : list Z) size : (length p = 35)%nat -> 421 <= size ->
  fold_left (fun t i => let? t := t in strncat size t (snprintf 20 (32 :: print_d p.[i]))) (seq 1 34)
            (Some (snprintf size (print_d p.[0]))) = Some (text_of p).
Proof.
  intros Hp Hs.
  assert (G : forall k, (k <= 34)%nat ->
    fold_left (fun t i => let? t := t in strncat size t (snprintf 20 (32 :: print_d p.[i]))) (seq 1 k)
            (Some (snprintf size (print_d p.[0]))) = Some (text_of (firstn (S k) p))).
  { induction k as [|k IH]; intros Hk.
    - destruct p as [|a p]; [discriminate|]. cbn [seq fold_left firstn text_of nth]. f_equal. unfold snprintf.
      apply firstn_short. pose proof (print_len a). lia.
    - rewrite seq_S, fold_left_app, IH by lia. cbn [fold_left]. rewrite (firstn_snoc p (S k)) by lia.
      set (l := firstn (S k) p). set (z := p.[S k]). change (1 + k)%nat with (S k). fold z.
      rewrite text_snoc by (unfold l; destruct p; [discriminate|cbn; discriminate]).
      pose proof (print_len z) as Hz. pose proof (text_len l) as Hl.
      assert (Hll : (length l = S k)%nat) by (unfold l; rewrite firstn_length; lia).
      unfold snprintf. rewrite (firstn_short (Z.to_nat (20 - 1))) by (cbn [List.length]; lia).
      unfold strncat. rewrite firstn_short by (cbn [List.length]; lia).
      replace (Z.of_nat (length (text_of l ++ 32 :: print_d z)) <? size) with true; [reflexivity|].
      symmetry. apply Z.ltb_lt. rewrite app_length. cbn [List.length]. lia. }
  rewrite G by lia. f_equal. f_equal. apply firstn_short. lia.
Qed.

Lemma text_round_trip g size : length (iv g) = 32%nat -> Forall (fun z => in_int z = true) (gen_ints g) -> 421 <= size ->
  exists t, convert_rnd_gen_to_text size g = Some t /\ Z.of_nat (length t) < size /\ convert_text_to_rnd_gen t = Some g.
Proof.
  intros Hl Hi Hs. assert (Hp : (length (gen_ints g) = 35)%nat).
  { unfold gen_ints. cbn [List.length]. rewrite app_length, Hl. reflexivity. }
  pose proof (text_len (gen_ints g)) as Ht.
  exists (text_of (gen_ints g)). split; [|split; [lia|]].
  - unfold convert_rnd_gen_to_text. cbv zeta. change (RAN2_NTAB + 2)%nat with 34%nat. rewrite (write_text _ size Hp Hs).
    replace (Z.of_nat (length (text_of (gen_ints g))) =? 1024) with false by lia. reflexivity.
  - unfold convert_text_to_rnd_gen. change (RAN2_NTAB + 3)%nat with 35%nat. rewrite <- Hp, (read_text _ Hi).
    now rewrite gen_round.
Qed.
