From Verif Require Import Base BytesModel BytesSpec.

Lemma byteSwap_rev t : byteSwap t = rev t.
Proof.
  unfold byteSwap. apply nth_ext with (d := 0) (d' := 0).
  - rewrite map_length, seq_length, rev_length. auto.
  - intros n Hn. rewrite map_length, seq_length in Hn.
    rewrite (nth_indep _ 0 (nth (length t - 1 - 0) t 0)) by (rewrite map_length, seq_length; auto).
    rewrite map_nth with (f := fun i => nth (length t - 1 - i) t 0) (d := 0%nat).
    rewrite seq_nth by auto. rewrite rev_nth by auto. cbn. f_equal. lia.
Qed.
Lemma byteSwap_invol t : byteSwap (byteSwap t) = t.
Proof. rewrite !byteSwap_rev. apply rev_involutive. Qed.

Lemma le_bytes_length n v : length (le_bytes n v) = n.
Proof. revert v. induction n; intros v; cbn; auto. Qed.
Lemma bytes_of_length e n v : length (bytes_of e n v) = n.
Proof. destruct e; cbn; rewrite ?rev_length; apply le_bytes_length. Qed.
Lemma le_bytes_range n v b : In b (le_bytes n v) -> 0 <= b < 256.
Proof.
  revert v. induction n as [|n IH]; intros v; cbn; [tauto|]. intros [<-|H]; [|eauto]. apply Z.mod_pos_bound. lia.
Qed.
Lemma bytes_of_range e n v b : In b (bytes_of e n v) -> 0 <= b < 256.
Proof. destruct e; cbn; [|rewrite <- in_rev]; apply le_bytes_range. Qed.

Lemma le_value_bytes n v : 0 <= v < 256 ^ Z.of_nat n -> le_value (le_bytes n v) = v.
Proof.
  revert v. induction n as [|n IH]; intros v Hv.
  - cbn in *. lia.
  - cbn [le_bytes le_value]. rewrite IH.
    + pose proof (Z.div_mod v 256). lia.
    + rewrite Nat2Z.inj_succ, Z.pow_succ_r in Hv by lia. split; [apply Z.div_pos; lia|apply Z.div_lt_upper_bound; lia].
Qed.
Lemma le_bytes_value l : Forall (fun b => 0 <= b < 256) l -> le_bytes (length l) (le_value l) = l.
Proof.
  induction 1 as [|b l Hb Hl IH]; [reflexivity|]. cbn [length le_bytes le_value].
  rewrite (Z.mul_comm 256), Z.mod_add, Z.mod_small, Z.div_add, Z.div_small by lia. cbn [Z.add]. now rewrite IH.
Qed.
Lemma value_bytes e n v : 0 <= v < 256 ^ Z.of_nat n -> value_of e (bytes_of e n v) = v.
Proof. destruct e; cbn; rewrite ?rev_involutive; apply le_value_bytes. Qed.

Lemma fix_to_native native source n v :
  fixToNative native source (bytes_of source n v) = bytes_of native n v.
Proof.
  unfold fixToNative, fixEndianness. destruct native, source; cbn [end_eqb]; auto; rewrite byteSwap_rev; cbn [bytes_of]; auto using rev_involutive.
Qed.
Lemma fix_from_native native dest n v :
  fixFromNative native dest (bytes_of native n v) = bytes_of dest n v.
Proof.
  unfold fixFromNative, fixEndianness. destruct native, dest; cbn [end_eqb]; auto; rewrite byteSwap_rev; cbn [bytes_of]; auto using rev_involutive.
Qed.
Lemma mask_list view stored t : map (mask_read view stored t) (seq 0 (length t)) = fixEndianness view stored t.
Proof.
  unfold fixEndianness, mask_read, byteSwap. destruct (end_eqb view stored); auto.
  apply nth_ext with (d := 0) (d' := 0); rewrite map_length, seq_length; auto.
  intros n Hn. rewrite (nth_indep _ 0 (nth 0 t 0)) by (rewrite map_length, seq_length; auto).
  rewrite map_nth with (f := fun i => nth i t 0) (d := 0%nat). now rewrite seq_nth by auto.
Qed.
Lemma mask_bytes view stored n v :
  map (mask_read view stored (bytes_of stored n v)) (seq 0 n) = bytes_of view n v.
Proof.
  rewrite <- (bytes_of_length stored n v) at 2. rewrite mask_list.
  exact (fix_from_native stored view n v).
Qed.
