(* Properties C56 (text utilities), C57 (advisory lock), C63 (lock file shared by jobs). *)
From Verif Require Import Base TextModel TextProofs LockModel LockProofs IldgFileModel IldgFileProofs.
Open Scope Z_scope.

(* ---------------- C56 ---------------- *)

(* The number of positions of str at which sub is found, overlaps included. *)
Theorem C56_count_substrings :
  forall s sub : list Z, sub <> [] ->
  exists l, NoDup l /\ count_substrings (Some s) sub = Some (Z.of_nat (length l)) /\
    forall p, In p l <-> (p < length s)%nat /\ exists r, skipn p s = sub ++ r.
Proof.
  intros s sub N. exists (filter (fun p => starts sub (skipn p s)) (seq 0 (length s))). split; [|split].
  - apply NoDup_filter, seq_NoDup.
  - rewrite count_substrings_ok by auto. f_equal. now apply occurrences_filter.
  - intros p. rewrite filter_In, in_seq, starts_app. split; intros [A B]; split; auto; lia.
Qed.
Print Assumptions C56_count_substrings.
Theorem C56_count_null : forall sub, count_substrings None sub = Some 0.
Proof. reflexivity. Qed.
Print Assumptions C56_count_null.
Example C56_count_meets : count_substrings (Some [1; 1; 1; 2; 1; 1]) [1; 1] = Some 3.
Proof. reflexivity. Qed.
(* With an empty sub the scan walks out of the string, for every string. *)
Theorem C56_count_empty_refuted : forall s, count_substrings (Some s) [] = None.
Proof.
  intros s. unfold count_substrings. generalize 0 as rc. generalize (S (length s)) as fuel. intros fuel; revert s.
  induction fuel as [|f IH]; intros s rc; auto. cbn [count_loop]. destruct s as [|a s]; cbn [strstr starts]; auto.
Qed.
Print Assumptions C56_count_empty_refuted.

(* The last characters, terminator included, at most size of them; the memory after them is left alone. *)
Theorem C56_take_last :
  forall out inp size, 0 <= size ->
  exists out', take_last_characters out inp size = Some out' /\
  let n := Z.min size (Z.of_nat (length inp) + 1) in
  (forall i, 0 <= i < n -> out' i = nth (length inp + 1 - Z.to_nat n + Z.to_nat i) (inp ++ [0]) 0) /\
  (forall i, i < 0 \/ n <= i -> out' i = out i) /\
  (0 < size -> out' (n - 1) = 0).
Proof.
  intros out inp size H. unfold take_last_characters. cbv zeta.
  set (len := Z.of_nat (length inp) + 1).
  assert (C : (if len <=? size then len else size) = Z.min size len) by (destruct (Z.leb_spec len size); lia).
  rewrite C. replace (Z.min size len <? 0) with false by lia. eexists. split; [reflexivity|].
  split; [|split].
  - intros i Hi. replace ((0 <=? i) && (i <? Z.min size len)) with true by lia. f_equal. destruct (Z.leb_spec len size); lia.
  - intros i Hi. now replace ((0 <=? i) && (i <? Z.min size len)) with false by lia.
  - intros S. replace ((0 <=? Z.min size len - 1) && (Z.min size len - 1 <? Z.min size len)) with true by lia.
    rewrite app_nth2; [|destruct (Z.leb_spec len size); lia].
    replace (_ - length inp)%nat with 0%nat by (destruct (Z.leb_spec len size); lia). reflexivity.
Qed.
Print Assumptions C56_take_last.
Example C56_take_meets : exists o, take_last_characters (fun _ => 7) [65; 66; 67; 68] 3 = Some o /\
  map o [0; 1; 2; 3] = [67; 68; 0; 7].
Proof. eexists. split; reflexivity. Qed.

(* A size up to 2^60 bytes is printed, rounded to the nearest, in the unit 1024^i in which it is above 1 and at most 1024. *)
Theorem C56_friendly :
  forall q, 0 <= q <= 2 ^ 60 ->
  exists v i, friendly_filesize 7 q = Some (v, Some i) /\ 0 <= i < 6 /\
    (v * 1024 ^ i) * 2 - 1024 ^ i <= to_double q * 2 < (v * 1024 ^ i) * 2 + 1024 ^ i /\
    to_double q <= 1024 ^ (i + 1) /\ (1 <= i -> 1024 ^ i < to_double q).
Proof.
  intros q H. destruct (friendly_ok q) as (i & A & B & C & D); [lia|].
  assert (I : i < 6) by (apply (friendly_small q); auto; lia).
  exists ((2 * to_double q + 1024 ^ i) / (2 * 1024 ^ i)), i. unfold friendly_filesize. rewrite A.
  replace (i <? 6) with true by lia. split; [reflexivity|]. split; [lia|]. split; [|auto].
  assert (P : 0 < 1024 ^ i) by (apply Z.pow_pos_nonneg; lia). clear - P.
  generalize (to_double q) as n, (1024 ^ i) as d, P; clear; intros n d P.
  pose proof (Z.div_mod (2 * n + d) (2 * d)) as E. pose proof (Z.mod_pos_bound (2 * n + d) (2 * d)) as M.
  set (v := (2 * n + d) / (2 * d)) in *. nia.
Qed.
Print Assumptions C56_friendly.
Theorem C56_friendly_exact : forall q, 0 <= q < 2 ^ 53 -> to_double q = q.
Proof. exact to_double_small. Qed.
Print Assumptions C56_friendly_exact.
Example C56_friendly_meets : friendly_filesize 7 5000000000 = Some (5, Some 3).
Proof. reflexivity. Qed.
(* From 2^61 bytes on the prefix is read outside the table. *)
Theorem C56_friendly_refuted :
  forall q, 2 ^ 61 <= q < 2 ^ 64 -> exists v, friendly_filesize 7 q = Some (v, None).
Proof.
  intros q H. destruct (friendly_ok q) as (i & A & B & C & D); [lia|]. unfold friendly_filesize. rewrite A.
  assert (T : 2 ^ 61 <= to_double q) by (apply to_double_ge; lia).
  assert (i = 6).
  { destruct (Z.eq_dec i 6); auto. exfalso. assert (1024 ^ (i + 1) <= 1024 ^ 6) by (apply Z.pow_le_mono_r; lia).
    rewrite (pow1024 6) in * by lia. assert (2 ^ (10 * 6) < 2 ^ 61) by (apply Z.pow_lt_mono_r; lia). lia. }
  subst. eexists. reflexivity.
Qed.
Print Assumptions C56_friendly_refuted.
(* With orders=1 and a quantity of 2 the loop of fprintf_friendly_units never ends. *)
Theorem C56_orders_one_refuted : forall turns, friendly_loop turns 2 1 1 0 = None.
Proof. intros. apply never_ends. Qed.
Print Assumptions C56_orders_one_refuted.

(* The correlator is printed starting from the source time, each time once. *)
Theorem C56_printed_times :
  forall T twall, 0 <= twall <= T ->
  printed_times T twall = map (fun i => (i + twall) mod T) (seqZ T).
Proof.
  intros T twall H. unfold printed_times. apply map_ext_in. intros i Hi. apply in_seqZ in Hi. cbv zeta.
  destruct (Z.leb_spec T (i + twall)).
  - apply (Z.mod_unique_pos _ _ 1); lia.
  - symmetry. apply Z.mod_small. lia.
Qed.
Print Assumptions C56_printed_times.
Example C56_printed_meets : printed_times 4 3 = [3; 0; 1; 2].
Proof. reflexivity. Qed.

Theorem C56_ceil8 :
  forall pos, 0 <= pos < 2 ^ 63 - 8 ->
  let r := ceil_to_next_eight_multiple pos in r mod 8 = 0 /\ pos <= r < pos + 8.
Proof. intros pos H. apply ceil8_mult. lia. Qed.
Print Assumptions C56_ceil8.

(* ---------------- C57 ---------------- *)

(* lockf answers 0 when the lock was obtained, -1 otherwise.  file_lock returns a descriptor exactly when the lock was not
   obtained; when it was, the file is closed and the lock lost. *)
Theorem C57_lock_refuted :
  forall fd status, 0 < fd -> status = 0 \/ status = -1 ->
  (fst (file_lock fd status) <> 0 <-> status = -1) /\
  (status = 0 -> file_lock fd status = (0, true)).
Proof.
  intros fd st F [-> | ->]; unfold file_lock; cbn; (split; [split|]); intros; try lia; auto.
Qed.
Print Assumptions C57_lock_refuted.
(* Even a file that cannot be opened gives back a non-zero "descriptor". *)
Theorem C57_cannot_open_refuted : fst (file_lock (-1) (-1)) = -1.
Proof. reflexivity. Qed.
Print Assumptions C57_cannot_open_refuted.
(* file_unlock closes the file exactly when it could not be unlocked. *)
Theorem C57_unlock_refuted :
  forall f status, status = 0 \/ status = -1 -> (snd (file_unlock f status) = true <-> status = -1).
Proof. intros f st [-> | ->]; unfold file_unlock; cbn; split; intros; try lia; auto. Qed.
Print Assumptions C57_unlock_refuted.

(* ---------------- C63 ---------------- *)

(* In any interleaving of any jobs, check_lock says yes to a job only if the last operation on the file was a write of its
   tag. *)
Theorem C63_check_means_last_writer :
  forall tag tr i p, tag p <> 0 -> nth_error tr i = Some (Check p) -> check_true tag (found tag None tr i) p = true ->
  exists j q, (j < i)%nat /\ nth_error tr j = Some (Write q) /\ tag q = tag p /\
    forall k o, (j < k < i)%nat -> nth_error tr k = Some o -> (forall r, o <> Write r) /\ (forall r, o <> Trunc r).
Proof.
  intros tag tr i p N _ H. destruct (check_last _ _ _ _ N H) as (j & q & A & B & C & D). exists j, q.
  split; auto. split; auto. split; auto. intros k o K E. specialize (D k o K E). split; intros r ->; discriminate.
Qed.
Print Assumptions C63_check_means_last_writer.

(* If all the jobs write before any checks, exactly the jobs with the tag written last say yes. *)
Theorem C63_one_winner :
  forall tag w c p, (forall o, In o c -> (forall r, o <> Write r) /\ (forall r, o <> Trunc r)) ->
  forall i q, nth_error (w ++ Write p :: c) i = Some (Check q) -> (length w < i)%nat ->
  (check_true tag (found tag None (w ++ Write p :: c) i) q = true <-> tag q = tag p).
Proof.
  intros tag w c p H i q E L.
  assert (N : nth_error (w ++ Write p :: c) (length w) = Some (Write p)).
  { rewrite nth_error_app2, Nat.sub_diag by lia. reflexivity. }
  rewrite (found_keep tag None _ (S (length w)) i).
  - rewrite (found_S _ _ _ _ _ N). unfold check_true. cbn. rewrite Z.eqb_eq. split; congruence.
  - lia.
  - intros k o K Ek. rewrite nth_error_app2 in Ek by lia. destruct (k - length w)%nat eqn:D; [lia|]. cbn in Ek.
    apply nth_error_In in Ek. destruct (H o Ek) as [A B]. destruct o; auto; [now elim (B p0)|now elim (A p0)].
Qed.
Print Assumptions C63_one_winner.

(* Jobs that look for the file, write it if missing, and check it later: two of them can both go on only if, for one of the
   two, the delay between looking and writing is at least the delay between writing and checking of the other.  So, if every
   job waits between writing and checking longer than any job takes from looking to writing, at most one goes on. *)
Theorem C63_exclusion :
  forall tag tr (time : nat -> Z) p q pp wp cp pq wq cq,
  (forall i j, (i <= j)%nat -> time i <= time j) ->
  tag p <> 0 -> tag q <> 0 -> (forall a b, tag a = tag b -> a = b) -> p <> q ->
  nth_error tr pp = Some (Probe p) -> nth_error tr wp = Some (Write p) -> nth_error tr cp = Some (Check p) ->
  nth_error tr pq = Some (Probe q) -> nth_error tr wq = Some (Write q) -> nth_error tr cq = Some (Check q) ->
  (pp < wp < cp)%nat -> (pq < wq < cq)%nat ->
  (forall j, nth_error tr j = Some (Write p) -> j = wp) -> (forall j, nth_error tr j = Some (Write q) -> j = wq) ->
  found tag None tr pp = None -> found tag None tr pq = None ->
  check_true tag (found tag None tr cp) p = true -> check_true tag (found tag None tr cq) q = true ->
  time cp - time wp <= time wq - time pq \/ time cq - time wq <= time wp - time pp.
Proof. intros. eapply (exclusion tag tr p q); eauto. Qed.
Print Assumptions C63_exclusion.

(* Without the bound on the delays both can go on: the second job looks before the first writes, and writes after the first
   has checked. *)
Theorem C63_exclusion_refuted :
  let tag := fun p : nat => Z.of_nat p + 1 in
  let tr := [Probe 0; Probe 1; Trunc 0; Write 0; Check 0; Trunc 1; Write 1; Check 1] in
  found tag None tr 0 = None /\ found tag None tr 1 = None /\
  check_true tag (found tag None tr 4) 0 = true /\ check_true tag (found tag None tr 7) 1 = true.
Proof. cbv zeta. split; [reflexivity|]. split; [reflexivity|]. split; reflexivity. Qed.
Print Assumptions C63_exclusion_refuted.
(* The two-winner trace of the refutation also meets the hypotheses of C63_exclusion, with time = position. *)
Example C63_exclusion_meets :
  let tag := fun p : nat => Z.of_nat p + 1 in
  let tr := [Probe 0; Probe 1; Trunc 0; Write 0; Check 0; Trunc 1; Write 1; Check 1] in
  (forall a b, tag a = tag b -> a = b) /\
  (forall j, nth_error tr j = Some (Write 0) -> j = 3%nat) /\ (forall j, nth_error tr j = Some (Write 1) -> j = 6%nat).
Proof.
  cbv zeta. split; [intros; lia|].
  split; intros j H; do 8 (destruct j as [|j]; [try reflexivity; discriminate H|]); destruct j; discriminate H.
Qed.
(* A job with tag zero would be told that it holds the lock when there is no file at all. *)
Theorem C63_zero_tag_refuted : check_true (fun _ => 0) None 0 = true.
Proof. reflexivity. Qed.
Print Assumptions C63_zero_tag_refuted.
