From Verif Require Import Base BytesModel BytesSpec BytesProofs IldgFileModel IldgFileSpec IldgFileProofs ChecksumTextModel.
From Coq Require Import String.
Local Notation length := List.length.

Lemma hex_digit_value d : 0 <= d < 16 -> hex_value (hex_digit d) = Some d.
Proof.
  intros H. assert (E : d = 0 \/ d = 1 \/ d = 2 \/ d = 3 \/ d = 4 \/ d = 5 \/ d = 6 \/ d = 7 \/ d = 8 \/ d = 9 \/ d = 10 \/ d = 11 \/ d = 12 \/ d = 13 \/ d = 14 \/ d = 15) by lia.
  repeat destruct E as [->|E]; try reflexivity. rewrite E. reflexivity.
Qed.
Lemma hex_min_length n v : (length (hex_min n v) <= n)%nat.
Proof. revert v. induction n as [|n IH]; intros v; cbn [hex_min]; [cbn; lia|]. destruct (v =? 0); [cbn; lia|]. rewrite app_length. specialize (IH (v / 16)). cbn [List.length]. lia. Qed.
Lemma hex_min_digits n v c : 0 <= v -> In c (hex_min n v) -> exists d, 0 <= d < 16 /\ c = hex_digit d.
Proof.
  revert v. induction n as [|n IH]; intros v Hv; cbn [hex_min]; [intros []|]. destruct (v =? 0); [intros []|].
  intros H. apply in_app_or in H as [H|[<-|[]]].
  - apply (IH (v / 16)); auto. apply Z.div_pos; lia.
  - exists (v mod 16). split; auto. apply Z.mod_pos_bound. lia.
Qed.
Lemma read_digits_app a b acc : (forall c, In c a -> exists d, 0 <= d < 16 /\ c = hex_digit d) -> read_digits (a ++ b) acc = read_digits b (read_digits a acc).
Proof.
  revert acc. induction a as [|c a IH]; intros acc H; cbn [app read_digits]; auto.
  destruct (H c (or_introl eq_refl)) as (d & Hd & ->). rewrite hex_digit_value by auto. apply IH. intros; apply H; right; auto.
Qed.
Lemma read_hex_min n v : 0 <= v < 16 ^ Z.of_nat n -> read_digits (hex_min n v) 0 = v.
Proof.
  revert v. induction n as [|n IH]; intros v Hv; cbn [hex_min]; [cbn in Hv; cbn; lia|].
  destruct (Z.eqb_spec v 0) as [->|Hn]; [reflexivity|].
  rewrite read_digits_app by (intros c Hc; apply (hex_min_digits n (v / 16)); auto; apply Z.div_pos; lia).
  rewrite IH.
  - cbn [read_digits]. rewrite hex_digit_value by (apply Z.mod_pos_bound; lia). pose proof (Z.div_mod v 16). lia.
  - rewrite Nat2Z.inj_succ, Z.pow_succ_r in Hv by lia. split; [apply Z.div_pos; lia|]. apply Z.div_lt_upper_bound; lia.
Qed.
Lemma read_zeros k l acc : acc = 0 -> read_digits (repeat 48 k ++ l) acc = read_digits l 0.
Proof. intros ->. induction k as [|k IH]; cbn [repeat app]; auto. Qed.

Definition no_hex (s : list Z) : Prop := match s with c :: _ => hex_value c = None | [] => True end.
Lemma read_stop s acc : no_hex s -> read_digits s acc = acc.
Proof. destruct s as [|c s]; cbn [no_hex read_digits]; auto. intros ->. reflexivity. Qed.

(** what is printed reads back, whatever follows that is not a digit *)
Lemma scan_print v rest : 0 <= v < 2 ^ 32 -> no_hex rest -> sscanf_x (print_hash010x v ++ rest) = Some v.
Proof.
  intros Hv Hr. unfold print_hash010x. destruct (Z.eqb_spec v 0) as [->|Hn].
  - assert (E : sscanf_x (repeat 48 10 ++ rest) = Some ((read_digits (repeat 48 10 ++ rest) 0) mod 2 ^ 32)) by reflexivity.
    rewrite E, read_zeros, read_stop by auto. reflexivity.
  - set (k := (10 - 2 - length (hex_min 8 v))%nat). change (chars "0x") with [48;120].
    assert (E : forall l, sscanf_x (([48;120]%Z ++ l) ++ rest) = Some ((read_digits (l ++ rest) 0) mod 2 ^ 32)) by reflexivity.
    rewrite E, <- app_assoc, read_zeros by auto.
    rewrite read_digits_app by (intros c Hc; apply (hex_min_digits 8 v); auto; lia).
    rewrite read_hex_min by (change (16 ^ Z.of_nat 8) with (2 ^ 32); lia). rewrite read_stop by auto. now rewrite Z.mod_small.
Qed.

(** the printed word contains no '<' *)
Lemma print_chars v c : 0 <= v -> In c (print_hash010x v) -> c <> 60 /\ 0 < c < 256.
Proof.
  intros Hv. unfold print_hash010x. destruct (v =? 0).
  - intros H. apply repeat_spec in H. lia.
  - change (chars "0x") with [48;120]. intros H. rewrite !in_app_iff in H. destruct H as [[<-|[<-|[]]]|[H|H]]; try lia.
    + apply repeat_spec in H. lia.
    + apply hex_min_digits in H as (d & Hd & ->); auto. unfold hex_digit. destruct (Z.ltb_spec d 10); lia.
Qed.

Lemma strstr_skip s p q : (forall c, In c s -> c <> 60) -> strstr (s ++ q) (60 :: p) = strstr q (60 :: p).
Proof.
  intros H. induction s as [|c s IH]; cbn [app]; auto. cbn [strstr is_prefix].
  destruct (Z.eqb_spec 60 c) as [E|E]; [exfalso; apply (H c); auto; left; auto|]. cbn [andb]. apply IH. intros; apply H; right; auto.
Qed.
Lemma strstr_step c s p : is_prefix p (c :: s) = false -> strstr (c :: s) p = strstr s p.
Proof. intros H. cbn [strstr]. now rewrite H. Qed.

Ltac lit s := let t := constr:(chars s) in let v := eval vm_compute in t in change t with v.
Lemma parse_message a b : 0 <= a < 2 ^ 32 -> 0 <= b < 2 ^ 32 -> parse_checksum (checksum_message (a, b)) = (a, b).
Proof.
  intros Ha Hb. unfold parse_checksum, checksum_message. cbn [fst snd].
  set (pa := print_hash010x a). set (pb := print_hash010x b).
  assert (NA : forall c, In c pa -> c <> 60) by (intros c Hc; apply (print_chars a c); auto; lia).
  set (e := chars "</sumb></scidacChecksum>").
  assert (E1 : strstr (chars "<?xml version=""1.0"" encoding=""UTF-8""?><scidacChecksum><version>1.0</version><suma>" ++ pa ++ chars "</suma><sumb>" ++ pb ++ e) (chars "<suma>")
     = Some (chars "<suma>" ++ pa ++ chars "</suma><sumb>" ++ pb ++ e)).
  { lit "<suma>"%string. lit "<?xml version=""1.0"" encoding=""UTF-8""?><scidacChecksum><version>1.0</version><suma>"%string.
    cbn [app]. repeat (rewrite strstr_step by reflexivity). cbn [strstr is_prefix Z.eqb Pos.eqb andb]. reflexivity. }
  assert (E2 : strstr (chars "<?xml version=""1.0"" encoding=""UTF-8""?><scidacChecksum><version>1.0</version><suma>" ++ pa ++ chars "</suma><sumb>" ++ pb ++ e) (chars "<sumb>")
     = Some (chars "<sumb>" ++ pb ++ e)).
  { lit "<sumb>"%string. lit "<?xml version=""1.0"" encoding=""UTF-8""?><scidacChecksum><version>1.0</version><suma>"%string.
    cbn [app]. repeat (rewrite strstr_step by reflexivity). rewrite strstr_skip by auto.
    lit "</suma><sumb>"%string. cbn [app]. repeat (rewrite strstr_step by reflexivity). cbn [strstr is_prefix Z.eqb Pos.eqb andb]. reflexivity. }
  rewrite E1, E2. 
  assert (S1 : skipn 6 (chars "<suma>" ++ pa ++ chars "</suma><sumb>" ++ pb ++ e) = pa ++ chars "</suma><sumb>" ++ pb ++ e) by reflexivity.
  assert (S2 : skipn 6 (chars "<sumb>" ++ pb ++ e) = pb ++ e) by reflexivity.
  rewrite S1, S2. unfold pa, pb. rewrite !scan_print; auto; reflexivity.
Qed.
Lemma message_chars a b : 0 <= a < 2 ^ 32 -> 0 <= b < 2 ^ 32 -> Forall (fun c => 0 < c < 256) (checksum_message (a, b)).
Proof.
  intros Ha Hb. unfold checksum_message. cbn [fst snd]. rewrite !Forall_app. 
  assert (H : forall v, 0 <= v < 2 ^ 32 -> Forall (fun c => 0 < c < 256) (print_hash010x v)) by (intros v Hv; apply Forall_forall; intros c Hc; apply (print_chars v c); auto; lia).
  split; [|split; [|split; [|split]]]; auto; vm_compute; repeat constructor.
Qed.
Lemma message_length a b : 0 <= a < 2 ^ 32 -> 0 <= b < 2 ^ 32 -> (length (checksum_message (a, b)) <= 1023)%nat.
Proof.
  intros Ha Hb. unfold checksum_message. cbn [fst snd]. rewrite !app_length.
  assert (H : forall v, (length (print_hash010x v) = 10)%nat).
  { intros v. unfold print_hash010x. pose proof (hex_min_length 8 v). destruct (v =? 0); [reflexivity|].
    rewrite !app_length, repeat_length. change (length (chars "0x")) with 2%nat. lia. }
  rewrite !H. vm_compute. lia.
Qed.
