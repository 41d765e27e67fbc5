(** Property theorems C26-C31, C60: files. *)
From Verif Require Import Base GeometryModel GeometrySpec GeometryProofs OwnerProofs AllToAllModel IldgModel IldgProofs
  ParModel ParSpec ParProofs ReduceModel ReduceSpec ReduceProofs ReduceMain BytesModel BytesSpec BytesProofs IldgFileModel IldgFileSpec IldgFileProofs
  ChecksumModel ChecksumSpec ChecksumProofs ChecksumMain ChecksumTextModel ChecksumTextProofs
  VectorFileModel VectorFileSpec VectorFileMain VectorFileFinal.
From Coq Require Import Permutation String.
Local Notation length := List.length.
Local Notation concat := List.concat.

(** C26: what is in the file *)
Theorem C26_format : forall native f0 rs, at_end f0 -> Forall good_record rs ->
  at_end (write_list native f0 rs) /\ content (write_list native f0 rs) = content f0 ++ flat_map record_bytes rs.
Proof. exact write_list_format. Qed.
Print Assumptions C26_format.

(** the first record of the given type after the current position is found, the others are skipped or stored in the
    list of messages, and its content is read, whatever follows *)
Theorem C26_found : forall native ignore f0 pre mid r post (m : option message) fuel,
  at_end f0 -> Forall good_record (pre ++ mid ++ r :: post) -> ~ In (fst r) (map fst mid) -> (length mid < fuel)%nat ->
  let f1 := write_list native f0 (pre ++ mid ++ r :: post) in
  exists h m' f2, 
    search_record fuel native ignore (mkFile (content f1) (fsize (write_list native f0 pre))) (fst r) m = Ok (Some h, m', f2) /\
    option_map message_list m' = option_map (fun m => message_list m ++ map (fun r => (fst r, padded (snd r))) mid) m /\
    read_all f2 (data_length h) = Ok (padded (snd r), mkFile (content f1) (fsize (write_list native f0 (pre ++ mid ++ [r])))).
Proof.
  intros native ignore f0 pre mid r post m fuel Hf HF Hn Hfu f1.
  assert (F1 : Forall good_record pre /\ Forall good_record mid /\ good_record r /\ Forall good_record post).
  { rewrite !Forall_app in HF. destruct HF as (A & B & C). inversion C; auto. }
  destruct F1 as (Fp & Fm & Fr & Fpost).
  destruct (write_list_format native f0 _ Hf HF) as [A1 C1]. destruct (write_list_format native f0 pre Hf Fp) as [A2 C2].
  assert (Fpmr : Forall good_record (pre ++ mid ++ [r])) by (rewrite !Forall_app; auto).
  destruct (write_list_format native f0 _ Hf Fpmr) as [A3 C3].
  fold f1 in A1, C1. unfold fsize. rewrite C1, C2, C3.
  rewrite !flat_map_app. cbn [flat_map]. rewrite app_nil_r.
  set (c1 := content f0 ++ flat_map record_bytes pre).
  assert (Q1 : Z.of_nat (length c1) mod 8 = 0) by (destruct A2 as [_ A2]; unfold fsize in A2; rewrite C2 in A2; exact A2).
  set (c2 := c1 ++ flat_map record_bytes mid).
  assert (Q2 : Z.of_nat (length c2) mod 8 = 0) by (unfold c2; rewrite app_length; pose proof (flat_length mid Fm); Z.div_mod_to_equations; lia).
  set (tl := flat_map record_bytes post).
  replace (content f0 ++ flat_map record_bytes pre ++ flat_map record_bytes mid ++ record_bytes r ++ tl)
    with (c1 ++ flat_map record_bytes mid ++ record_bytes r ++ tl) by (unfold c1; now rewrite <- app_assoc).
  do 3 eexists. split; [|split].
  - replace fuel with (length mid + S (fuel - length mid - 1))%nat by lia. rewrite search_skips by auto.
    rewrite app_assoc. fold c2. rewrite search_here by auto. reflexivity.
  - destruct m as [m|]; cbn [mess_add option_map]; auto. f_equal. apply mess_add_list.
  - cbn [data_length head_of]. rewrite record_split. pose proof (head_length r (proj1 Fr)) as HH.
    replace (c2 ++ (head_bytes r ++ padded (snd r)) ++ tl) with ((c2 ++ head_bytes r) ++ padded (snd r) ++ tl) by (now rewrite <- !app_assoc).
    replace (Z.of_nat (length c2) + 144) with (Z.of_nat (length (c2 ++ head_bytes r))) by (rewrite app_length, HH; lia).
    rewrite read_all_mid; [|rewrite app_length, HH; Z.div_mod_to_equations; lia|apply padded_mult].
    f_equal. f_equal. f_equal.
    + unfold c2. now rewrite <- !app_assoc.
    + unfold c2, c1. rewrite !app_length. lia.
Qed.
Print Assumptions C26_found.

(** a type that is not there is reported as missing, all the messages are collected *)
Theorem C26_missing : forall native ignore f0 pre rs name (m : option message) fuel,
  at_end f0 -> Forall good_record (pre ++ rs) -> ~ In name (map fst rs) -> (length rs < fuel)%nat ->
  let f1 := write_list native f0 (pre ++ rs) in
  exists m', 
    search_record fuel native ignore (mkFile (content f1) (fsize (write_list native f0 pre))) name m = Ok (None, m', f1) /\
    option_map message_list m' = option_map (fun m => message_list m ++ map (fun r => (fst r, padded (snd r))) rs) m.
Proof.
  intros native ignore f0 pre rs name m fuel Hf HF Hn Hfu f1.
  assert (F1 := HF). rewrite Forall_app in F1. destruct F1 as (Fp & Fr).
  destruct (write_list_format native f0 _ Hf HF) as [A1 C1]. destruct (write_list_format native f0 pre Hf Fp) as [A2 C2].
  fold f1 in A1, C1. unfold fsize. rewrite C1, C2. rewrite flat_map_app, app_assoc.
  set (c1 := content f0 ++ flat_map record_bytes pre).
  assert (Q1 : Z.of_nat (length c1) mod 8 = 0) by (destruct A2 as [_ A2]; unfold fsize in A2; rewrite C2 in A2; exact A2).
  eexists. split.
  - replace fuel with (length rs + S (fuel - length rs - 1))%nat by lia.
    rewrite <- (app_nil_r (flat_map record_bytes rs)). rewrite search_skips by auto. rewrite app_nil_r, search_end.
    f_equal. f_equal. destruct f1 as [cc pp]. cbn [content] in C1. destruct A1 as [A1 _]. unfold fsize in A1. cbn [content pos] in A1.
    rewrite A1, C1. rewrite flat_map_app, app_assoc. reflexivity.
  - destruct m as [m|]; cbn [mess_add option_map]; auto. f_equal. apply mess_add_list.
Qed.
Print Assumptions C26_missing.

Example C26_ex : at_end (mkFile [] 0) /\
  Forall good_record [(chars "ildg-format", chars "abc"); (chars "x", []); (chars "ildg-format", chars "12345678")].
Proof. split; [split; reflexivity|]. repeat constructor; cbn; try lia. Qed.
Example C26_ex_run :
  search_record 5 LittleEndian false (mkFile (content (write_list LittleEndian (mkFile [] 0) [(chars "a", chars "abc"); (chars "b", chars "xy")])) 0) (chars "b") (Some Last) =
  Ok (Some (mkHeader ILDG_MAGIC_NO 1 0 8 (chars "b" ++ repeat 0 127)), Some (Mess (chars "a") (chars "abc" ++ repeat 0 5) Last),
      mkFile (content (write_list LittleEndian (mkFile [] 0) [(chars "a", chars "abc"); (chars "b", chars "xy")])) 296).
Proof. vm_compute. reflexivity. Qed.

(** a name of more than 127 characters is truncated by the writer and never found *)
Theorem C26_long_name_refuted : exists name data,
  search_record 5 LittleEndian false (mkFile (content (write_record LittleEndian (mkFile [] 0) name data)) 0) name None =
  Ok (None, None, write_record LittleEndian (mkFile [] 0) name data).
Proof. exists (repeat 97 128), [1;2;3]. vm_compute. reflexivity. Qed.
Print Assumptions C26_long_name_refuted.

(** a record announcing 2^64-144 bytes makes the search go back to its beginning for ever *)
Definition loop_file : file := mkFile (header_bytes LittleEndian (fixFromNative LittleEndian BigEndian) (build_record_header 0 0 (chars "a") (2 ^ 64 - 144))) 0.
Theorem C26_endless_refuted : forall fuel, search_record fuel LittleEndian false loop_file (chars "b") None = Spin.
Proof.
  induction fuel as [|fuel IH]; [reflexivity|]. cbn [search_record].
  change (reached_EOF loop_file) with false. cbv iota.
  assert (E : get_next_record_header LittleEndian false loop_file = Ok (mkHeader ILDG_MAGIC_NO 1 0 (2 ^ 64 - 144) (chars "a" ++ repeat 0 127), mkFile (content loop_file) 144))
    by (vm_compute; reflexivity).
  rewrite E. cbn [bind]. cbn [type].
  assert (E1 : cstr (chars "a" ++ repeat 0 127) = Some (chars "a")) by (vm_compute; reflexivity). rewrite E1.
  change (listZ_eqb (chars "b") (chars "a")) with false. cbv iota.
  assert (E2 : skip_record (mkFile (content loop_file) 144) (mkHeader ILDG_MAGIC_NO 1 0 (2 ^ 64 - 144) (chars "a" ++ repeat 0 127)) = Ok loop_file) by (vm_compute; reflexivity).
  rewrite E2. cbn [bind]. exact IH.
Qed.
Print Assumptions C26_endless_refuted.

(** C29: the words of the checksum read back, also after other records *)
Theorem C29_checksum_text : forall native ignore f0 rs post a b fuel,
  at_end f0 -> Forall good_record (rs ++ post) -> ~ In (chars "scidac-checksum") (map fst rs) ->
  0 <= a < 2 ^ 32 -> 0 <= b < 2 ^ 32 -> (length rs < fuel)%nat ->
  let f1 := write_list native (write_checksum native (write_list native f0 rs) (a, b)) post in
  exists f2, read_checksum fuel native ignore (mkFile (content f1) (fsize f0)) = Ok (Some (a, b), f2).
Proof.
  intros native ignore f0 rs post a b fuel Hf HF Hn Ha Hb Hfu f1. rewrite Forall_app in HF. destruct HF as [Hr Hp].
  destruct (write_list_format native f0 rs Hf Hr) as [A1 C1]. pose proof (good_check a b Ha Hb) as HC.
  pose proof (record_at_end native (write_list native f0 rs) (check_record (a, b)) A1 HC) as A2.
  pose proof (record_format native (write_list native f0 rs) (check_record (a, b)) A1 HC) as C2.
  destruct (write_list_format native _ post A2 Hp) as [A3 C3].
  assert (E : content f1 = content f0 ++ flat_map record_bytes rs ++ record_bytes (check_record (a, b)) ++ flat_map record_bytes post).
  { unfold f1, write_checksum, write_text_record. rewrite check_name_eq.
    change check_name with (fst (check_record (a, b))). change (checksum_message (a, b) ++ [0]) with (snd (check_record (a, b))).
    rewrite C3, C2. cbn [content]. rewrite C1, <- !app_assoc. reflexivity. }
  rewrite E. unfold fsize. rewrite check_name_eq in Hn. destruct Hf as [_ Hf]. eexists.
  exact (read_check_main native ignore (content f0) rs a b (flat_map record_bytes post) fuel Ha Hb Hf Hr Hn Hfu).
Qed.
Print Assumptions C29_checksum_text.
Example C29_ex : checksum_message (0, 48879) = chars "<?xml version=""1.0"" encoding=""UTF-8""?><scidacChecksum><version>1.0</version><suma>0000000000</suma><sumb>0x0000beef</sumb></scidacChecksum>".
Proof. vm_compute. reflexivity. Qed.

(** C30 *)
Theorem C30_byteSwap : forall t, byteSwap t = rev t /\ byteSwap (byteSwap t) = t.
Proof. intros t. split; [apply byteSwap_rev|apply byteSwap_invol]. Qed.
Print Assumptions C30_byteSwap.
Theorem C30_round_trip : forall native e t, fixToNative native e (fixFromNative native e t) = t /\ fixFromNative native e (fixToNative native e t) = t.
Proof.
  intros native e t. unfold fixToNative, fixFromNative, fixEndianness. destruct native, e; cbn [end_eqb]; auto using byteSwap_invol.
Qed.
Print Assumptions C30_round_trip.
(** the number represented does not change *)
Theorem C30_value : forall native e t, value_of e (fixFromNative native e t) = value_of native t /\ value_of native (fixToNative native e t) = value_of e t.
Proof.
  intros native e t. unfold fixToNative, fixFromNative, fixEndianness.
  destruct native, e; cbn [end_eqb]; rewrite ?byteSwap_rev; cbn [value_of]; rewrite ?rev_involutive; auto.
Qed.
Print Assumptions C30_value.
Example C30_ex : fixFromNative LittleEndian BigEndian (bytes_of LittleEndian 4 0x456789ab) = [0x45; 0x67; 0x89; 0xab]. Proof. reflexivity. Qed.

(** C31: a buffer is a queue of values, for any sequence of insertions and extractions *)
Inductive buf_op := Put (t : list Z) | Get (size : nat).
Fixpoint run_buf (native : endianness) (b : buffer) (ops : list buf_op) : option (list (list Z)) :=
  match ops with
  | [] => Some []
  | Put t :: r => run_buf native (buf_put native b t) r
  | Get n :: r => match buf_get native b n with Some (t, b) => option_map (cons t) (run_buf native b r) | None => None end
  end.
Fixpoint run_queue (q : list (list Z)) (ops : list buf_op) : option (list (list Z)) :=
  match ops with
  | [] => Some []
  | Put t :: r => run_queue (q ++ [t]) r
  | Get n :: r => match q with t :: q => if (length t =? n)%nat then option_map (cons t) (run_queue q r) else None | [] => None end
  end.
Lemma skip_skip {A} a b (l : list A) : skipn a (skipn b l) = skipn (a + b) l.
Proof. revert l. induction b as [|b IH]; intros l; [now rewrite Nat.add_0_r|]. rewrite Nat.add_succ_r. destruct l as [|x l]; [now rewrite !skipn_nil|]. cbn [skipn]. apply IH. Qed.
Theorem C31_buffer_queue : forall native ops outs, run_queue [] ops = Some outs -> run_buf native (mkBuffer [] 0) ops = Some outs.
Proof.
  intros native ops.
  assert (FL : forall t, length (fixFromNative native LittleEndian t) = length t).
  { intros t. unfold fixFromNative, fixEndianness. destruct (end_eqb LittleEndian native); auto. now rewrite byteSwap_rev, rev_length. }
  assert (G : forall ops q b outs, (tellg b <= length (st b))%nat -> skipn (tellg b) (st b) = concat (map (fixFromNative native LittleEndian) q) ->
    run_queue q ops = Some outs -> run_buf native b ops = Some outs).
  { induction ops0 as [|[t|n] ops0 IH]; intros q b outs Hb Hq H; cbn [run_queue run_buf] in *; auto.
    - apply (IH (q ++ [t])); auto.
      + cbn [tellg st buf_put]. rewrite app_length. lia.
      + cbn [tellg st buf_put]. rewrite map_app, concat_app. cbn [map List.concat]. rewrite app_nil_r, skipn_app, Hq.
        replace (tellg b - length (st b))%nat with 0%nat by lia. reflexivity.
    - destruct q as [|t q]; [discriminate|]. destruct (Nat.eqb_spec (length t) n) as [E|E]; [|discriminate]. cbn [map List.concat] in Hq.
      unfold buf_get. rewrite Hq. 
      assert (Ef : firstn n (fixFromNative native LittleEndian t ++ concat (map (fixFromNative native LittleEndian) q)) = fixFromNative native LittleEndian t).
      { rewrite firstn_app, FL, E, Nat.sub_diag. cbn [firstn]. rewrite app_nil_r. apply firstn_all2. rewrite FL. lia. }
      rewrite Ef, FL, E, Nat.eqb_refl. rewrite (proj1 (C30_round_trip native LittleEndian t)).
      destruct (run_queue q ops0) as [o|] eqn:EQ; [|discriminate]. rewrite (IH q (mkBuffer (st b) (tellg b + n)) o); auto.
      + cbn [tellg st]. pose proof (f_equal (@List.length Z) Hq) as HL. rewrite skipn_length, app_length, FL in HL. lia.
      + cbn [tellg st]. rewrite Nat.add_comm, <- skip_skip, Hq, skipn_app, FL, E, Nat.sub_diag. cbn [skipn]. rewrite skipn_all2 by (rewrite FL; lia). reflexivity. }
  intros outs H. apply (G ops [] (mkBuffer [] 0) outs); auto.
Qed.
Print Assumptions C31_buffer_queue.
Example C31_ex : run_queue [] [Put [1;2;3;4]; Put [9]; Get 4; Put [7;8]; Get 1; Get 2] = Some [[1;2;3;4]; [9]; [7;8]]. Proof. reflexivity. Qed.
(** the bytes of a buffer are those of little endian numbers on any machine *)
Theorem C31_portable : forall native native' ts,
  st (fold_left (buf_put native) (map (fun p => bytes_of native (fst p) (snd p)) ts) (mkBuffer [] 0)) =
  st (fold_left (buf_put native') (map (fun p => bytes_of native' (fst p) (snd p)) ts) (mkBuffer [] 0)).
Proof.
  intros native native' ts.
  assert (G : forall nat_ ts b, st (fold_left (buf_put nat_) (map (fun p => bytes_of nat_ (fst p) (snd p)) ts) b) = st b ++ flat_map (fun p => bytes_of LittleEndian (fst p) (snd p)) ts).
  { intros nat_. induction ts0 as [|[n v] ts0 IH]; intros b; cbn [map fold_left flat_map]; [now rewrite app_nil_r|].
    rewrite IH. cbn [st buf_put fst snd]. rewrite fix_from_native, <- app_assoc. reflexivity. }
  now rewrite !G.
Qed.
Print Assumptions C31_portable.

(** C28 *)
Section C28.
Lemma red_of_exists {V} (op : V -> V -> V) l : l <> [] -> exists x, red_of op l x.
Proof.
  induction l as [|a l IH]; [congruence|]. intros _. destruct l as [|b l]; [eexists; constructor|].
  destruct IH as [x Hx]; [discriminate|]. exists (op a x). apply red_two with (l1 := [a]) (l2 := b :: l); [constructor|auto|apply Permutation_refl].
Qed.
Lemma choice_Z (P : Z -> Z -> Prop) : (forall d, 0 <= d < 2 -> exists v, P d v) -> exists f : Z -> Z, forall d, 0 <= d < 2 -> P d (f d).
Proof.
  intros H. destruct (H 0) as [v0 H0]; [lia|]. destruct (H 1) as [v1 H1]; [lia|].
  exists (fun d => if d =? 0 then v0 else v1). intros d Hd. assert (E : d = 0 \/ d = 1) by lia. destruct E as [-> | ->]; auto.
Qed.
End C28.
Theorem C28_checksum : forall g bk shr32 native ix data field,
  valid_grid g = true -> prodZ (glbSize g) <= 2 ^ 32 ->
  (forall c, shr32 c = 0 \/ shr32 c = c) -> distinct_addresses ix (locVol g) 2 -> (forall k, 0 <= k <= locVol g -> fits (bk k) 0 k) ->
  (forall x r i, in_box x (glbSize g) -> getLoclxAndRankOfCoords g x = (r, i) -> data r i = field x) ->
  (forall x, in_box x (glbSize g) -> ok_bytes (field x)) ->
  let bytes x := concat (map (fixEndianness BigEndian native) (field x)) in
  (forall check, ildgChecksum bk shr32 native g ix data check ->
     check 0 = checksum_spec (glbSize g) bytes 29 /\ check 1 = checksum_spec (glbSize g) bytes 31) /\
  exists check, ildgChecksum bk shr32 native g ix data check.
Proof.
  intros g bk shr32 native ix data field Hv Hf Hs Hix Hbk Hd Hok bytes. split.
  - intros check H. exact (checksum_main g Hv Hf shr32 native ix bk Hs Hix Hbk data field Hd Hok check H).
  - assert (B : exists buffs : list (mem Z), Forall2 (fun rank buff => exists m0, PAR (bk (locVol g)) 0 (locVol g) (checksum_body shr32 native g ix rank (data rank)) m0 buff) (seqZ (nranks g)) buffs).
    { induction (seqZ (nranks g)) as [|r l [bs IH]]; [exists []; constructor|].
      exists (serial_loop (launched (bk (locVol g)) 0 (locVol g)) (checksum_body shr32 native g ix r (data r)) (fun _ => 0) :: bs).
      constructor; auto. exists (fun _ => 0). apply par_exists. }
    destruct B as [buffs HB].
    assert (Hne : buffs <> []).
    { intros ->. inversion HB as [E|]. destruct (glbVol_split g Hv) as (_ & HN & _). pose proof (seqZ_length (nranks g)) as SL. rewrite <- E in SL. cbn [List.length] in SL. lia. }
    assert (M : exists ms : list (mem Z), Forall2 (fun m m' => reduce_loop bk Z.lxor ix 2 1 (locVol g) (locVol g) m m') buffs ms).
    { clear HB Hne. induction buffs as [|m l [ms IH]]; [exists []; constructor|].
      destruct (loop_exists Z.lxor ix 2 1 (locVol g) bk (locVol g) m) as [m' Hm']. exists (m' :: ms). constructor; auto. }
    destruct M as [ms HM].
    destruct (choice_Z (fun d v => red_of Z.lxor (map (fun m' : mem Z => m' (ix 0 d)) ms) v)) as [check Hc].
    { intros d _. apply red_of_exists. intros E. apply map_eq_nil in E. subst ms. inversion HM. congruence. }
    exists check, buffs. split; auto. exists ms. auto.
Qed.
Print Assumptions C28_checksum.
(** hence the words do not depend on the process grid, the machine, the order of the operations *)
Theorem C28_grid_independent : forall g g' bk bk' shr32 shr32' native ix ix' data data' field check check',
  valid_grid g = true -> valid_grid g' = true -> glbSize g' = glbSize g -> prodZ (glbSize g) <= 2 ^ 32 ->
  (forall c, shr32 c = 0 \/ shr32 c = c) -> (forall c, shr32' c = 0 \/ shr32' c = c) ->
  distinct_addresses ix (locVol g) 2 -> distinct_addresses ix' (locVol g') 2 ->
  (forall k, 0 <= k <= locVol g -> fits (bk k) 0 k) -> (forall k, 0 <= k <= locVol g' -> fits (bk' k) 0 k) ->
  (forall x r i, in_box x (glbSize g) -> getLoclxAndRankOfCoords g x = (r, i) -> data r i = field x) ->
  (forall x r i, in_box x (glbSize g) -> getLoclxAndRankOfCoords g' x = (r, i) -> data' r i = field x) ->
  (forall x, in_box x (glbSize g) -> ok_bytes (field x)) ->
  ildgChecksum bk shr32 native g ix data check -> ildgChecksum bk' shr32' native g' ix' data' check' ->
  check 0 = check' 0 /\ check 1 = check' 1.
Proof.
  intros g g' bk bk' shr32 shr32' native ix ix' data data' field check check' Hv Hv' EL Hf Hs Hs' Hi Hi' Hb Hb' Hd Hd' Hok H H'.
  destruct (C28_checksum g bk shr32 native ix data field Hv Hf Hs Hi Hb Hd Hok) as [C _]. destruct (C check H) as [-> ->].
  rewrite <- EL in Hf, Hd', Hok.
  destruct (C28_checksum g' bk' shr32' native ix' data' field Hv' Hf Hs' Hi' Hb' Hd' Hok) as [C' _]. destruct (C' check' H') as [-> ->].
  rewrite EL. auto.
Qed.
Print Assumptions C28_grid_independent.
Example C28_ex : crc32 (chars "123456789") = 0xcbf43926. Proof. vm_compute. reflexivity. Qed.
Example C28_ex_hyps : let g := mkGrid [8;4;4;2] [2;2;1;1] in
  valid_grid g = true /\ prodZ (glbSize g) <= 2 ^ 32 /\ distinct_addresses (fun i d => 2 * i + d) (locVol g) 2 /\
  (forall k, 0 <= k <= locVol g -> fits (Cuda I32 I64 128) 0 k) /\ ok_bytes [[1;2;3;4];[255;0;7;9]].
Proof.
  cbv zeta. split; [reflexivity|]. split; [vm_compute; congruence|]. split; [intros s d s' d' _ _ ? ? ?; lia|]. split.
  - intros k Hk. change (locVol (mkGrid [8;4;4;2] [2;2;1;1])) with 64 in Hk. unfold fits, lim, common. 
    assert (0 <= (k - 0 + 128 - 1) / 128 <= 1) by (Z.div_mod_to_equations; lia). lia.
  - repeat constructor; lia.
Qed.

(** C27: a data record of a length multiple of 8 leaves the file ready for the next record *)
Theorem C27_aligned : forall native g sched order sz ndeg field data garbage f name,
  valid_grid g = true -> glb_fits_int g -> Z.rem (glbSize g).[0] (nranks g) = 0 ->
  (forall m i, In i (sched m) <-> 0 <= i < m) -> Permutation order (seqZ (nranks g)) ->
  0 < sz <= 8 -> 0 < ndeg -> (forall x, in_box x (glbSize g) -> shaped sz ndeg (field x)) ->
  (forall x r i, in_box x (glbSize g) -> getLoclxAndRankOfCoords g x = (r, i) -> data r i = field x) ->
  (prodZ (glbSize g) * (ndeg * sz)) mod 8 = 0 -> prodZ (glbSize g) * (ndeg * sz) < 2 ^ 63 - 8 ->
  at_end f -> good_name name ->
  exists f1, write_ildg_data_all native g sched order sz ndeg f data garbage name = Ok f1 /\ at_end f1 /\
    content f1 = content f ++ record_bytes (name, payload native (glbSize g) field).
Proof.
  intros native g sched order sz ndeg field data garbage f name Hv Hfit Hdiv Hs HP Hsz Hnd Hsh Hd H8 Hbig Hf Hn.
  assert (Hg : good_split (glbSize g) g) by (repeat split; auto).
  eexists. split; [apply (data_format native sz ndeg field (glbSize g) Hsz Hnd Hsh H8 Hbig g); auto|].
  destruct (good_data native sz ndeg field (glbSize g) Hsh H8 Hbig g name Hg Hn) as [HG _].
  pose proof (record_at_end native f (name, payload native (glbSize g) field) Hf HG) as R. rewrite record_format in R by auto.
  split; [exact R|reflexivity].
Qed.
Print Assumptions C27_aligned.

(** otherwise the padding is added twice and the next record starts out of place: a 3x3x3x3 lattice with one single
    precision number per site is written, and reading it back aborts at the checksum *)
Definition odd_lattice : grid := mkGrid [3;3;3;3] [1;1;1;1].
Definition odd_written : outcome file :=
  write_real_vector LittleEndian odd_lattice seqZ [0] 4 1 (mkFile [] 0) (fun _ i => [[i;0;0;0]]) tempty (chars "data") None (1, 2).
Theorem C27_unaligned_refuted : exists f1, odd_written = Ok f1 /\ fsize f1 mod 8 <> 0 /\
  read_real_vector 9 LittleEndian false odd_lattice seqZ 4 1 tempty (mkFile (content f1) 0) (chars "data") None = Crash.
Proof. 
  assert (H : match odd_written with Ok f1 => (fsize f1 mod 8 =? 4) && match read_real_vector 9 LittleEndian false odd_lattice seqZ 4 1 tempty (mkFile (content f1) 0) (chars "data") None with Crash => true | _ => false end | _ => false end = true)
    by (vm_compute; reflexivity).
  destruct odd_written as [f1| |]; [|discriminate|discriminate]. exists f1. split; auto.
  apply andb_prop in H as [H1 H2]. split; [apply Z.eqb_eq in H1; lia|].
  destruct (read_real_vector 9 LittleEndian false odd_lattice seqZ 4 1 tempty (mkFile (content f1) 0) (chars "data") None); auto; discriminate.
Qed.
Print Assumptions C27_unaligned_refuted.

(** C60: a field written on one process grid, with messages and checksum, is read back on any other *)
Theorem C60_field_round_trip : forall native ignore g g' sched sched' order sz ndeg field data garbage garbage' f0 rs name a b (m : option message),
  valid_grid g = true -> glb_fits_int g -> Z.rem (glbSize g).[0] (nranks g) = 0 ->
  valid_grid g' = true -> glbSize g' = glbSize g -> Z.rem (glbSize g').[0] (nranks g') = 0 ->
  (forall m i, In i (sched m) <-> 0 <= i < m) -> (forall m i, In i (sched' m) <-> 0 <= i < m) -> Permutation order (seqZ (nranks g)) ->
  0 < sz <= 8 -> 0 < ndeg -> (forall x, in_box x (glbSize g) -> shaped sz ndeg (field x)) ->
  (prodZ (glbSize g) * (ndeg * sz)) mod 8 = 0 -> prodZ (glbSize g) * (ndeg * sz) < 2 ^ 63 - 8 ->
  (forall x r i, in_box x (glbSize g) -> getLoclxAndRankOfCoords g x = (r, i) -> data r i = field x) ->
  at_end f0 -> Forall good_record rs -> good_name name -> ~ In name (map fst rs) -> 0 <= a < 2 ^ 32 -> 0 <= b < 2 ^ 32 ->
  exists f1, write_real_vector native g sched order sz ndeg f0 data garbage name (Some (messages rs)) (a, b) = Ok f1 /\
  forall fuel, (length rs + 1 < fuel)%nat -> exists m' outs,
    read_real_vector fuel native ignore g' sched' sz ndeg garbage' (mkFile (content f1) (fsize f0)) name m = Ok (m', outs, Some (a, b)) /\
    option_map message_list m' = option_map (fun m => message_list m ++ map (fun r => (fst r, padded (snd r))) rs) m /\
    Forall2 (fun r out => forall x i, in_box x (glbSize g) -> getLoclxAndRankOfCoords g' x = (r, i) -> out i = Some (field x)) (seqZ (nranks g')) outs.
Proof.
  intros native ignore g g' sched sched' order sz ndeg field data garbage garbage' f0 rs name a b m Hv Hfit Hdiv Hv' EL Hdiv' Hs Hs' HP Hsz Hnd Hsh H8 Hbig Hd Hf0 Hrs Hname Hnew Ha Hb.
  assert (Hg : good_split (glbSize g) g) by (repeat split; auto).
  assert (Hg' : good_split (glbSize g) g') by (repeat split; auto; unfold glb_fits_int; rewrite EL; exact Hfit).
  destruct (round_trip native sz ndeg field (glbSize g) Hsz Hnd Hsh H8 Hbig g g' sched sched' order Hg Hg' Hs Hs' HP data Hd f0 rs name a b Hf0 Hrs Hname Hnew Ha Hb garbage ignore garbage' m) as (f1 & E & R).
  exists f1. split; auto. intros fuel Hfu. destruct (R fuel Hfu) as (outs & ER & HF). exists (mess_add m rs), outs. split; auto. split; auto.
  destruct m as [m|]; cbn [mess_add option_map]; auto. f_equal. apply mess_add_list.
Qed.
Print Assumptions C60_field_round_trip.
(** a lattice with two numbers per site over 4 and over 2 ranks *)
Example C60_ex : let g := mkGrid [4;2;2;2] [2;1;1;1] in let g' := mkGrid [4;2;2;2] [1;1;1;1] in
  let data := fun r i => [[r;i;0;1]; [2;3;r;i]] in
  match write_real_vector LittleEndian g seqZ [1;0] 4 2 (mkFile [] 0) data tempty (chars "data") (Some (messages [(chars "m", chars "hi")])) (7, 8) with
  | Ok f1 => match read_real_vector 9 LittleEndian false g' (fun n => rev (seqZ n)) 4 2 tempty (mkFile (content f1) 0) (chars "data") (Some Last) with
             | Ok (Some m, [out], Some c) => (message_list m, c, out 0, out 16, out 31)
             | _ => ([], (0, 0), None, None, None)
             end
  | _ => ([], (0, 0), None, None, None)
  end = ([(chars "m", chars "hi" ++ repeat 0 6)], (7, 8), Some (data 0 0), Some (data 1 0), Some (data 1 15)).
Proof. vm_compute. reflexivity. Qed.

(** a single precision file is accepted when a double precision field is requested: no conversion is made, and half of
    the sites are left undefined *)
Theorem C60_float_refuted : exists f1 outs out,
  write_real_vector LittleEndian (mkGrid [2;2;2;2] [1;1;1;1]) seqZ [0] 4 2 (mkFile [] 0) (fun r i => [[r;i;0;1]; [2;3;r;i]]) tempty (chars "data") None (7, 8) = Ok f1 /\
  read_real_vector 9 LittleEndian false (mkGrid [2;2;2;2] [1;1;1;1]) seqZ 8 2 tempty (mkFile (content f1) 0) (chars "data") None = Ok (None, outs, Some (7, 8)) /\
  outs = [out] /\ out 8 = None.
Proof.
  set (w := write_real_vector LittleEndian (mkGrid [2;2;2;2] [1;1;1;1]) seqZ [0] 4 2 (mkFile [] 0) (fun r i => [[r;i;0;1]; [2;3;r;i]]) tempty (chars "data") None (7, 8)).
  assert (H : match w with Ok f1 => match read_real_vector 9 LittleEndian false (mkGrid [2;2;2;2] [1;1;1;1]) seqZ 8 2 tempty (mkFile (content f1) 0) (chars "data") None with
              Ok (None, [out], Some (7, 8)) => match out 8 with None => true | _ => false end | _ => false end | _ => false end = true) by (vm_compute; reflexivity).
  destruct w as [f1| |]; [|discriminate|discriminate]. exists f1.
  set (rd := read_real_vector 9 LittleEndian false (mkGrid [2;2;2;2] [1;1;1;1]) seqZ 8 2 tempty (mkFile (content f1) 0) (chars "data") None) in *. clearbody rd.
  destruct rd as [[[mo outs] c]| |]; [|discriminate|discriminate]. destruct mo; [discriminate|]. destruct outs as [|out [|]]; [discriminate| |discriminate].
  destruct c as [[c1 c2]|]; [|discriminate]. exists [out], out. split; auto.
  assert (E : c1 = 7 /\ c2 = 8 /\ out 8 = None).
  { destruct c1 as [|c1|c1]; try discriminate. repeat (destruct c1 as [c1|c1|]; try discriminate).
    destruct c2 as [|c2|c2]; try discriminate. repeat (destruct c2 as [c2|c2|]; try discriminate).
    destruct (out 8); auto. discriminate. }
  destruct E as (-> & -> & E). auto.
Qed.
Print Assumptions C60_float_refuted.
