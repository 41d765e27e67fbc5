From Verif Require Import Base BytesModel BytesSpec BytesProofs IldgFileModel IldgFileSpec.

Lemma put_end c d : put_bytes c (length c) d = c ++ d.
Proof.
  unfold put_bytes. rewrite Nat.sub_diag. cbn [repeat]. rewrite app_nil_r, firstn_all.
  rewrite (skipn_all2 c) by lia. now rewrite app_nil_r.
Qed.
Lemma fwrite_end f d : pos f = fsize f -> fwrite f d = mkFile (content f ++ d) (fsize f + Z.of_nat (length d)).
Proof. unfold fwrite, fsize. intros H. rewrite H, Nat2Z.id, put_end. reflexivity. Qed.
Lemma diff8 p : 0 <= p -> diff_with_next_eight_multiple p = (- p) mod 8.
Proof.
  intros H. unfold diff_with_next_eight_multiple. cbv zeta. rewrite Z.rem_mod_nonneg by lia.
  destruct (Z.eqb_spec (p mod 8) 0); cbn [negb]; Z.div_mod_to_equations; lia.
Qed.
Lemma ceil8 p : 0 <= p -> ceil_to_next_eight_multiple p = p + (- p) mod 8.
Proof. intros H. unfold ceil_to_next_eight_multiple. now rewrite diff8. Qed.
Lemma ceil8_mult p : 0 <= p -> ceil_to_next_eight_multiple p mod 8 = 0 /\ p <= ceil_to_next_eight_multiple p < p + 8.
Proof. intros H. rewrite ceil8 by auto. Z.div_mod_to_equations. lia. Qed.
Lemma padded_length d : Z.of_nat (length (padded d)) = ceil_to_next_eight_multiple (Z.of_nat (length d)).
Proof. unfold padded. rewrite app_length, repeat_length, ceil8 by lia. pose proof (Z.mod_pos_bound (- Z.of_nat (length d)) 8). lia. Qed.
Lemma padded_mult d : Z.of_nat (length (padded d)) mod 8 = 0.
Proof. rewrite padded_length. apply ceil8_mult. lia. Qed.
Lemma type_field_good n : good_name n -> type_field n = n ++ repeat 0 (128 - length n).
Proof.
  intros [H _]. unfold type_field. rewrite firstn_all2 by lia. f_equal.
  replace (128 - length n)%nat with (S (127 - length n)) by lia. cbn [repeat]. now rewrite repeat_cons.
Qed.
Lemma mbme0 native : bytes_of native 2 0 = [0;0]. Proof. now destruct native. Qed.

Lemma record_format native f r : at_end f -> good_record r ->
  write_record native f (fst r) (snd r) = mkFile (content f ++ record_bytes r) (fsize f + Z.of_nat (length (record_bytes r))).
Proof.
  intros [Hp H8] [Hn Hl]. destruct r as [n d]. cbn [fst snd] in *. unfold write_record, write_record_header, master_write. cbv zeta.
  unfold header_bytes, build_record_header. cbn [magic_no version mbme_flag data_length type].
  rewrite !fix_from_native, type_field_good by auto. change (0 * 128 + 0 * 64) with 0. rewrite mbme0.
  rewrite (fwrite_end f) by auto. rewrite fwrite_end.
  2:{ unfold fsize. cbn [pos content]. rewrite !app_length. lia. }
  unfold fsize. cbn [content pos].
  assert (E : record_bytes (n, d) = (bytes_of BigEndian 4 ILDG_MAGIC_NO ++ bytes_of BigEndian 2 1 ++ [0; 0] ++
     bytes_of BigEndian 8 (ceil_to_next_eight_multiple (Z.of_nat (length d))) ++ n ++ repeat 0 (128 - length n)) ++
     (d ++ repeat 0 (Z.to_nat (ceil_to_next_eight_multiple (Z.of_nat (length d))) - length d))).
  { unfold record_bytes. cbn [fst snd]. rewrite padded_length. rewrite <- !app_assoc. change (bytes_of BigEndian 2 1) with [0;1].
    change ILDG_MAGIC_NO with 0x456789ab. unfold padded. rewrite ceil8 by lia.
    replace (Z.to_nat (Z.of_nat (length d) + - Z.of_nat (length d) mod 8) - length d)%nat with (Z.to_nat (- Z.of_nat (length d) mod 8)).
    2:{ pose proof (Z.mod_pos_bound (- Z.of_nat (length d)) 8). lia. }
    reflexivity. }
  rewrite E. f_equal.
  - now rewrite <- !app_assoc.
  - rewrite !app_length. lia.
Qed.

Lemma record_length r : good_name (fst r) -> Z.of_nat (length (record_bytes r)) = 144 + Z.of_nat (length (padded (snd r))).
Proof. intros [H _]. unfold record_bytes. rewrite !app_length, !bytes_of_length, repeat_length. cbn [length]. lia. Qed.
Lemma record_at_end native f r : at_end f -> good_record r -> at_end (write_record native f (fst r) (snd r)).
Proof.
  intros Hf Hr. rewrite record_format by auto. destruct Hf as [Hp H8]. unfold at_end, fsize in *. cbn [pos content].
  rewrite app_length. split; [lia|]. pose proof (record_length r (proj1 Hr)). pose proof (padded_mult (snd r)).
  Z.div_mod_to_equations. lia.
Qed.
Lemma write_list_format native f rs : at_end f -> Forall good_record rs ->
  at_end (write_list native f rs) /\ content (write_list native f rs) = content f ++ flat_map record_bytes rs.
Proof.
  intros Hf H. revert f Hf. induction H as [|r rs Hr H IH]; intros f Hf; cbn [write_list fold_left flat_map]; [now rewrite app_nil_r|].
  destruct (IH _ (record_at_end native f r Hf Hr)) as [I1 I2]. split; [exact I1|]. unfold write_list in I2. rewrite I2.
  rewrite (record_format native f r Hf Hr) at 1. cbn [content]. now rewrite <- app_assoc.
Qed.

(** reading *)
Lemma seek_aligned f : pos f mod 8 = 0 -> 0 <= pos f -> seek_to_next_eight_multiple f = Ok f.
Proof.
  intros H H0. unfold seek_to_next_eight_multiple, skip_nbytes. rewrite diff8 by auto.
  replace (- pos f mod 8) with 0 by (Z.div_mod_to_equations; lia). reflexivity.
Qed.
Lemma firstn_mid {A} (a b c : list A) : firstn (length b) (skipn (length a) (a ++ b ++ c)) = b.
Proof.
  rewrite skipn_app, skipn_all, Nat.sub_diag. cbn [skipn app]. rewrite firstn_app, firstn_all, Nat.sub_diag. cbn [firstn]. apply app_nil_r.
Qed.
Lemma read_all_mid c1 d c2 : Z.of_nat (length c1) mod 8 = 0 -> Z.of_nat (length d) mod 8 = 0 ->
  read_all (mkFile (c1 ++ d ++ c2) (Z.of_nat (length c1))) (Z.of_nat (length d)) =
  Ok (d, mkFile (c1 ++ d ++ c2) (Z.of_nat (length c1) + Z.of_nat (length d))).
Proof.
  intros H1 H2. unfold read_all. rewrite seek_aligned; cbn [pos]; [|auto|lia]. cbn [bind]. unfold fread. cbn [content pos].
  rewrite !Nat2Z.id, firstn_mid, Z.eqb_refl. cbn [negb]. rewrite seek_aligned; cbn [pos]; [reflexivity| |lia].
  Z.div_mod_to_equations. lia.
Qed.
Lemma cstr_field n k : Forall (fun c => 0 < c < 256) n -> (0 < k)%nat -> cstr (n ++ repeat 0 k) = Some n.
Proof.
  intros H Hk. induction H as [|c n Hc H IH]; cbn [app cstr].
  - destruct k as [|k]; [lia|reflexivity].
  - destruct (Z.eqb_spec c 0); [lia|]. now rewrite IH.
Qed.
Lemma listZ_eqb_spec a b : listZ_eqb a b = true <-> a = b.
Proof.
  revert b. induction a as [|x a IH]; intros [|y b]; cbn [listZ_eqb]; split; intros H; try discriminate; auto.
  - apply andb_prop in H as [H1 H2]. apply Z.eqb_eq in H1. apply IH in H2. congruence.
  - injection H as -> ->. rewrite Z.eqb_refl. cbn [andb]. now apply IH.
Qed.
Lemma listZ_eqb_neq a b : a <> b -> listZ_eqb a b = false.
Proof. intros H. destruct (listZ_eqb a b) eqn:E; auto. apply listZ_eqb_spec in E. contradiction. Qed.

Definition head_bytes (r : list Z * list Z) : list Z :=
  bytes_of BigEndian 4 0x456789ab ++ [0; 1] ++ [0; 0] ++ bytes_of BigEndian 8 (Z.of_nat (length (padded (snd r)))) ++
  fst r ++ repeat 0 (128 - length (fst r)).
Lemma record_split r : record_bytes r = head_bytes r ++ padded (snd r).
Proof. unfold record_bytes, head_bytes. now rewrite <- !app_assoc. Qed.
Lemma head_length r : good_name (fst r) -> length (head_bytes r) = 144%nat.
Proof. intros [H _]. unfold head_bytes. rewrite !app_length, !bytes_of_length, repeat_length. cbn [length]. lia. Qed.
Definition head_of (n : list Z) (len : Z) : header := mkHeader ILDG_MAGIC_NO 1 0 len (n ++ repeat 0 (128 - length n)).

Lemma head_parse native (n : list Z) len : good_name n -> 0 <= len < 2 ^ 64 ->
  header_of_bytes native (fixToNative native BigEndian)
    (bytes_of BigEndian 4 0x456789ab ++ [0; 1] ++ [0; 0] ++ bytes_of BigEndian 8 len ++ n ++ repeat 0 (128 - length n)) = head_of n len.
Proof.
  intros [Hn _] Hl. set (t := n ++ repeat 0 (128 - length n)).
  assert (Ht : length t = 128%nat) by (unfold t; rewrite app_length, repeat_length; lia).
  assert (A : forall a b c, sub_bytes (a ++ b ++ c) (length a) (length b) = b) by (intros; apply firstn_mid).
  unfold header_of_bytes, head_of. fold t.
  set (m := bytes_of BigEndian 4 0x456789ab). set (l := bytes_of BigEndian 8 len).
  assert (Em : length m = 4%nat) by apply bytes_of_length. assert (El : length l = 8%nat) by apply bytes_of_length.
  f_equal.
  - pose proof (A [] m ([0;1] ++ [0;0] ++ l ++ t)) as B. cbn [length app] in B. cbn [app]. rewrite Em in B. rewrite B. unfold m.
    rewrite fix_to_native. now apply value_bytes.
  - pose proof (A m [0;1] ([0;0] ++ l ++ t)) as B. rewrite Em in B. cbn [length] in B. rewrite B. change [0;1] with (bytes_of BigEndian 2 1).
    rewrite fix_to_native. now apply value_bytes.
  - pose proof (A (m ++ [0;1]) [0;0] (l ++ t)) as B. rewrite app_length, Em in B. cbn [length plus] in B. rewrite <- app_assoc in B. rewrite B.
    now destruct native.
  - pose proof (A (m ++ [0;1] ++ [0;0]) l t) as B. rewrite !app_length, Em, El in B. cbn [length plus] in B. rewrite <- !app_assoc in B. rewrite B.
    unfold l. rewrite fix_to_native. apply value_bytes. change (Z.of_nat 8) with 8. change (256 ^ 8) with (2 ^ 64). lia.
  - pose proof (A (m ++ [0;1] ++ [0;0] ++ l) t []) as B. rewrite !app_length, Em, El, Ht in B. cbn [length plus] in B.
    rewrite <- !app_assoc, app_nil_r in B. exact B.
Qed.

Lemma good_pad r : good_record r -> 0 <= Z.of_nat (length (padded (snd r))) < 2 ^ 63.
Proof. intros [_ H]. rewrite padded_length. pose proof (ceil8_mult (Z.of_nat (length (snd r)))). lia. Qed.

Lemma get_header native ignore c1 r c2 : Z.of_nat (length c1) mod 8 = 0 -> good_record r ->
  get_next_record_header native ignore (mkFile (c1 ++ record_bytes r ++ c2) (Z.of_nat (length c1))) =
  Ok (head_of (fst r) (Z.of_nat (length (padded (snd r)))), mkFile (c1 ++ record_bytes r ++ c2) (Z.of_nat (length c1) + 144)).
Proof.
  intros H1 Hr. unfold get_next_record_header. rewrite seek_aligned; cbn [pos]; [|auto|lia]. cbn [bind].
  rewrite record_split, <- app_assoc. pose proof (head_length r (proj1 Hr)) as HL.
  replace header_size with (Z.of_nat (length (head_bytes r))) by (rewrite HL; reflexivity).
  rewrite read_all_mid; [|auto|rewrite HL; reflexivity]. cbn [bind]. cbv zeta.
  assert (E : header_of_bytes native (fixToNative native BigEndian) (head_bytes r) = head_of (fst r) (Z.of_nat (length (padded (snd r)))))
    by (apply head_parse; [apply Hr|pose proof (good_pad r Hr); lia]).
  rewrite E. cbn [magic_no head_of].
  rewrite Z.eqb_refl. cbn [negb andb]. rewrite HL. reflexivity.
Qed.
Lemma to_int64_id z : 0 <= z < 2 ^ 63 -> to_int64 z = z.
Proof. intros H. unfold to_int64. rewrite Z.mod_small; lia. Qed.
Lemma skip_mid c p h : p mod 8 = 0 -> 0 <= p -> data_length h mod 8 = 0 -> 0 <= data_length h < 2 ^ 63 ->
  skip_record (mkFile c p) h = Ok (mkFile c (p + data_length h)).
Proof.
  intros H1 H2 H3 H4. unfold skip_record. rewrite seek_aligned; cbn [pos]; [|auto|lia]. cbn [bind]. rewrite to_int64_id by auto.
  assert (E : skip_nbytes (mkFile c p) (data_length h) = Ok (mkFile c (p + data_length h))).
  { unfold skip_nbytes. destruct (Z.eqb_spec (data_length h) 0) as [E|E]; cbn [negb]; [rewrite E, Z.add_0_r; reflexivity|].
    unfold fseek. cbn [pos content]. destruct (Z.ltb_spec (p + data_length h) 0); [lia|reflexivity]. }
  rewrite E. cbn [bind]. rewrite seek_aligned; cbn [pos]; [reflexivity| |lia]. Z.div_mod_to_equations; lia.
Qed.

Lemma message_list_append m n d : message_list (append_to_last m n d) = message_list m ++ [(n, d)].
Proof. induction m as [|n' d' m IH]; cbn [append_to_last message_list app]; [reflexivity|]. now rewrite IH. Qed.
Lemma message_list_inj m m' : message_list m = message_list m' -> m = m'.
Proof. revert m'. induction m as [|n d m IH]; intros [|n' d' m'] H; cbn [message_list] in H; try discriminate; auto. injection H as -> -> H. f_equal; auto. Qed.
Lemma append_inj m n d m' : message_list m' = message_list m ++ [(n, d)] -> m' = append_to_last m n d.
Proof. intros H. apply message_list_inj. now rewrite message_list_append. Qed.

Definition padrec (r : list Z * list Z) : list Z * list Z := (fst r, padded (snd r)).
Definition mess_add (m : option message) (rs : list (list Z * list Z)) : option message :=
  option_map (fun m => fold_left (fun m r => append_to_last m (fst r) (snd r)) (map padrec rs) m) m.
Lemma mess_add_list m rs : message_list (fold_left (fun m r => append_to_last m (fst r) (snd r)) rs m) = message_list m ++ rs.
Proof. revert m. induction rs as [|[n d] rs IH]; intros m; cbn [fold_left]; [now rewrite app_nil_r|]. rewrite IH, message_list_append, <- app_assoc. reflexivity. Qed.

Lemma head_type r : good_record r -> cstr (type (head_of (fst r) (Z.of_nat (length (padded (snd r)))))) = Some (fst r).
Proof. intros [[H1 H2] _]. cbn [type head_of]. apply cstr_field; [auto|lia]. Qed.

(** one record that is not the one sought *)
Lemma search_skip fuel native ignore c1 r c2 name m : Z.of_nat (length c1) mod 8 = 0 -> good_record r -> name <> fst r ->
  search_record (S fuel) native ignore (mkFile (c1 ++ record_bytes r ++ c2) (Z.of_nat (length c1))) name m =
  search_record fuel native ignore (mkFile (c1 ++ record_bytes r ++ c2) (Z.of_nat (length (c1 ++ record_bytes r)))) name (mess_add m [r]).
Proof.
  intros H1 Hr Hn. cbn [search_record]. pose proof (record_length r (proj1 Hr)) as HL. pose proof (padded_mult (snd r)) as HP. pose proof (good_pad r Hr) as HG.
  assert (E : reached_EOF (mkFile (c1 ++ record_bytes r ++ c2) (Z.of_nat (length c1))) = false).
  { unfold reached_EOF, fsize. cbn [content pos]. rewrite !app_length. apply Z.leb_gt. lia. }
  rewrite E, get_header by auto. cbn [bind]. rewrite head_type by auto. rewrite listZ_eqb_neq by auto.
  destruct m as [m|].
  - cbn [data_length head_of mess_add option_map map fold_left padrec fst snd]. 
    rewrite record_split in *. pose proof (head_length r (proj1 Hr)) as HH.
    replace (c1 ++ (head_bytes r ++ padded (snd r)) ++ c2) with ((c1 ++ head_bytes r) ++ padded (snd r) ++ c2) by (now rewrite <- !app_assoc).
    replace (Z.of_nat (length c1) + 144) with (Z.of_nat (length (c1 ++ head_bytes r))) by (rewrite app_length, HH; lia).
    rewrite read_all_mid; [|rewrite app_length, HH; Z.div_mod_to_equations; lia|auto]. cbn [bind].
    rewrite !app_length, HH. f_equal. f_equal. lia.
  - rewrite skip_mid; cbn [data_length head_of]; auto; [|Z.div_mod_to_equations; lia|lia]. cbn [bind mess_add option_map].
    rewrite app_length. f_equal. f_equal. lia.
Qed.
Lemma search_here fuel native ignore c1 r c2 m : Z.of_nat (length c1) mod 8 = 0 -> good_record r ->
  search_record (S fuel) native ignore (mkFile (c1 ++ record_bytes r ++ c2) (Z.of_nat (length c1))) (fst r) m =
  Ok (Some (head_of (fst r) (Z.of_nat (length (padded (snd r))))), m, mkFile (c1 ++ record_bytes r ++ c2) (Z.of_nat (length c1) + 144)).
Proof.
  intros H1 Hr. cbn [search_record]. pose proof (record_length r (proj1 Hr)) as HL.
  assert (E : reached_EOF (mkFile (c1 ++ record_bytes r ++ c2) (Z.of_nat (length c1))) = false).
  { unfold reached_EOF, fsize. cbn [content pos]. rewrite !app_length. apply Z.leb_gt. lia. }
  rewrite E, get_header by auto. cbn [bind]. rewrite head_type by auto.
  replace (listZ_eqb (fst r) (fst r)) with true by (symmetry; now apply listZ_eqb_spec). reflexivity.
Qed.
Lemma search_end fuel native ignore c name m : search_record (S fuel) native ignore (mkFile c (Z.of_nat (length c))) name m = Ok (None, m, mkFile c (Z.of_nat (length c))).
Proof. cbn [search_record]. unfold reached_EOF, fsize. cbn [content pos]. now rewrite Z.leb_refl. Qed.

Lemma search_skips fuel native ignore rs c1 c2 name m : Z.of_nat (length c1) mod 8 = 0 -> Forall good_record rs -> ~ In name (map fst rs) ->
  search_record (length rs + fuel) native ignore (mkFile (c1 ++ flat_map record_bytes rs ++ c2) (Z.of_nat (length c1))) name m =
  search_record fuel native ignore (mkFile (c1 ++ flat_map record_bytes rs ++ c2) (Z.of_nat (length (c1 ++ flat_map record_bytes rs)))) name (mess_add m rs).
Proof.
  intros H1 H. revert c1 m H1. induction H as [|r rs Hr H IH]; intros c1 m H1 Hn.
  - cbn [length plus flat_map app]. rewrite app_nil_r. f_equal. destruct m; reflexivity.
  - cbn [length plus flat_map]. rewrite <- (app_assoc (record_bytes r)). rewrite search_skip; auto; [|intros E; apply Hn; left; congruence].
    replace (c1 ++ record_bytes r ++ flat_map record_bytes rs ++ c2) with ((c1 ++ record_bytes r) ++ flat_map record_bytes rs ++ c2) by (now rewrite <- !app_assoc).
    rewrite IH.
    + f_equal; [now rewrite <- !app_assoc|]. destruct m as [m|]; reflexivity.
    + rewrite app_length. pose proof (record_length r (proj1 Hr)). pose proof (padded_mult (snd r)). Z.div_mod_to_equations; lia.
    + intros E. apply Hn. right. exact E.
Qed.

Lemma flat_length rs : Forall good_record rs -> Z.of_nat (length (flat_map record_bytes rs)) mod 8 = 0.
Proof.
  induction 1 as [|r rs Hr H IH]; cbn [flat_map]; [reflexivity|]. rewrite app_length.
  pose proof (record_length r (proj1 Hr)). pose proof (padded_mult (snd r)). Z.div_mod_to_equations; lia.
Qed.
