(** Property theorems C42, C43, C59: reductions, parallel loops, autotuning. *)
From Verif Require Import Base ParModel ParSpec ParProofs ReduceModel ReduceSpec ReduceProofs ReduceMain.
From Coq Require Import Permutation.

(** C43: one launch calls the body on each index of [min,max) once, in either build, if the largest thread
    index fits the loop counter *)
Theorem C43_each_index_once : forall b mn mx, fits b mn mx ->
  Permutation (launched b mn mx) (rangeZ mn mx) /\ NoDup (launched b mn mx) /\
  (forall i, In i (launched b mn mx) <-> mn <= i < mx).
Proof.
  intros b mn mx H. rewrite (launched_fits b mn mx H).
  split; [apply Permutation_refl|]. split; [apply NoDup_rangeZ|]. intros i. apply in_rangeZ.
Qed.
Print Assumptions C43_each_index_once.
Example C43_ex : fits (Cuda I32 I64 128) 3 1000 /\ fits (Cuda I32 I32 1024) 0 2147483647 /\
  launched (Cuda I32 I64 4) 3 9 = [3;4;5;6;7;8].
Proof.
  split; [|split; [|vm_compute; reflexivity]]; unfold fits, lim, common; repeat split; try lia; apply Z.leb_le; vm_compute; reflexivity.
Qed.

(** a loop counter of 64 bits does not help: no index beyond 2^32 is ever run when the lower end is an int *)
Theorem C43_wide_loop_refuted : exists mx bs i, 0 < bs <= 1024 /\ 0 <= i < mx /\
  ~ In i (launched (Cuda I32 I64 bs) 0 mx).
Proof.
  exists 4294967297, 128, 4294967296. split; [lia|]. split; [lia|].
  unfold launched. intros H. pose proof (cuda_wrap 4294967297 128 4294967296 H) as G. unfold two32 in G. lia.
Qed.
Print Assumptions C43_wide_loop_refuted.

(** the end of a parallel loop: whatever the interleaving of the single memory accesses, if no body stores where
    another loads or stores, memory is as after the serial loop; and a parallel loop always can end *)
Theorem C43_serial_equivalence : forall V (b : backend) mn mx (body : Z -> prog V) R W m,
  fits b mn mx -> indep body (rangeZ mn mx) R W ->
  (forall m', PAR b mn mx body m m' -> forall a, m' a = serial_loop (rangeZ mn mx) body m a) /\
  (exists m', PAR b mn mx body m m').
Proof.
  intros V b mn mx body R W m Hf Hi. unfold PAR. rewrite (launched_fits b mn mx Hf). split.
  - intros m' H. exact (par_serial body _ R W m m' (NoDup_rangeZ _ _) Hi H).
  - eexists. apply par_exists.
Qed.
Print Assumptions C43_serial_equivalence.
(** y[i]+=x[i], with x at even and y at odd addresses *)
Example C43_ex2 : indep (fun i => Ld (2 * i) (fun x => Ld (2 * i + 1) (fun y => St (2 * i + 1) (x + y) Ret)))
  (rangeZ 0 5) (fun i a => (a =? 2 * i) || (a =? 2 * i + 1)) (fun i a => a =? 2 * i + 1).
Proof. repeat split; intros; cbn [confined]; repeat split; intros; lia. Qed.
(** without independence the outcome depends on the schedule *)
Example C43_ex_race :
  exists m1 m2, PAR OpenMP 0 2 (fun _ => Ld 0 (fun x => St 0 (x + 1) Ret)) (fun _ => 0) m1 /\
                PAR OpenMP 0 2 (fun _ => Ld 0 (fun x => St 0 (x + 1) Ret)) (fun _ => 0) m2 /\ m1 0 = 2 /\ m2 0 = 1.
Proof.
  exists (store (store (fun _ => 0) 0 1) 0 2), (store (store (fun _ => 0) 0 1) 0 1). repeat split.
  - exists [0;0;1;1]%nat, [Ret;Ret]. eexists. split; [reflexivity|]. split; [repeat constructor|reflexivity].
  - exists [0;1;0;1]%nat, [Ret;Ret]. eexists. split; [reflexivity|]. split; [repeat constructor|reflexivity].
Qed.

(** C42: locReduce gives for each slice and component the combination of all its elements, for any associative
    and commutative operation, any number of elements, any schedule; aborts exactly when the slices do not divide *)
Theorem C42_locReduce : forall V (bk : Z -> backend) (op : V -> V -> V) ix ndeg n nslices m o,
  associative op -> commutative op -> 0 < nslices ->
  distinct_addresses ix n ndeg -> (forall k, 0 <= k <= n -> fits (bk k) 0 k) ->
  locReduce bk op ix ndeg n nslices m o ->
  match o with
  | Crashed => ~ (nslices | n)
  | UndefinedB => n <= 0
  | Result res => (nslices | n) /\ 0 < n /\
     forall s d, 0 <= s < nslices -> 0 <= d < ndeg ->
       total op (map (fun i => m (ix (i + n / nslices * s) d)) (seqZ (n / nslices))) = Some (res s d)
  end.
Proof. intros V bk op ix ndeg n nslices m o. apply locReduce_main. Qed.
Print Assumptions C42_locReduce.
Example C42_ex : let ix := fun s d => s * 2 + d in
  distinct_addresses ix 15 2 /\ (forall k, 0 <= k <= 15 -> fits (Cuda I32 I64 4) 0 k) /\
  associative Z.add /\ commutative Z.add /\
  total Z.add (map (fun i => (fun a => a * a) (ix (i + 15 / 3 * 2) 1)) (seqZ (15 / 3))) = Some 3165.
Proof.
  split; [intros s d s' d'; lia|]. split; [|split; [exact Z.add_assoc|split; [exact Z.add_comm|reflexivity]]].
  intros k Hk. unfold fits, lim; cbn [common].
  pose proof (Z.div_mod (k - 0 + 4 - 1) 4). pose proof (Z.mod_pos_bound (k - 0 + 4 - 1) 4). lia.
Qed.

(** it always ends, and what it returns does not depend on schedule, threads or block sizes even for operations that
    are not associative (floating point sums) *)
Theorem C42_schedule_independent : forall V (bk bk' : Z -> backend) (op : V -> V -> V) ix ndeg n nslices m,
  0 < nslices -> distinct_addresses ix n ndeg ->
  (forall k, 0 <= k <= n -> fits (bk k) 0 k) -> (forall k, 0 <= k <= n -> fits (bk' k) 0 k) ->
  (exists o, locReduce bk op ix ndeg n nslices m o) /\
  forall o o', locReduce bk op ix ndeg n nslices m o -> locReduce bk' op ix ndeg n nslices m o' ->
  match o, o' with
  | Crashed, Crashed | UndefinedB, UndefinedB => True
  | Result r, Result r' => forall s d, r s d = r' s d
  | _, _ => False
  end.
Proof.
  intros V bk bk' op ix ndeg n nslices m H1 H2 H3 H4. split; [apply locReduce_exists|].
  intros o o'. apply locReduce_det; auto.
Qed.
Print Assumptions C42_schedule_independent.

(** glb_reduce: over all the ranks, each slice is the sum of all the elements belonging to it *)
Theorem C42_glb_reduce : forall V (bk : Z -> backend) (op : V -> V -> V) zero ix ndeg nslices ranks glb,
  associative op -> commutative op -> (forall x, op zero x = x) ->
  Forall (fun c => 0 < nloc_slices c /\ distinct_addresses ix (nloc c) ndeg /\
                   forall k, 0 <= k <= nloc c -> fits (bk k) 0 k) ranks ->
  glb_reduce bk op op zero ix ndeg nslices ranks glb ->
  forall s d, 0 <= s < nslices -> 0 <= d < ndeg ->
    glb s d = fold_right op zero (flat_map (fun c => slice_elems ix c s d) ranks).
Proof. intros V bk op zero ix ndeg nslices ranks glb. apply glb_main. Qed.
Print Assumptions C42_glb_reduce.
(** two ranks holding slices 0-1 and 1-2 of 3 *)
Example C42_ex_glb : let ix := fun s d => s + d in
  let c0 := {| buf := fun a => a + 1; nloc := 6; nloc_slices := 2; loc_offset := 0 |} in
  let c1 := {| buf := fun a => 10 * a; nloc := 4; nloc_slices := 2; loc_offset := 1 |} in
  map (fun s => fold_right Z.add 0 (flat_map (fun c => slice_elems ix c s 0) [c0;c1])) (seqZ 3) = [6;25;50].
Proof. vm_compute. reflexivity. Qed.

(** glbReduce with another operation still sums over the ranks: the maximum of 3 and 5 comes out as 8 *)
Theorem C42_glbReduce_max_refuted : exists ranks glb,
  glb_reduce (fun _ => OpenMP) maxOp Z.add 0 (fun s d => s + d) 1 1 ranks glb /\
  map (fun c => buf c 0) ranks = [3; 5] /\ map (fun c => nloc c) ranks = [1; 1] /\ glb 0 0 = 8.
Proof.
  exists [{| buf := fun _ => 3; nloc := 1; nloc_slices := 1; loc_offset := 0 |};
          {| buf := fun _ => 5; nloc := 1; nloc_slices := 1; loc_offset := 0 |}], (fun _ _ => 8).
  split; [|auto].
  exists [fun _ _ => 3; fun _ _ => 5]. split.
  - repeat constructor; cbn [nloc nloc_slices buf].
    + apply (lr_ok (fun _ => OpenMP) maxOp (fun s d => s + d) 1 1 1 (fun _ => 3) (fun _ => 3)); try lia; try reflexivity.
      apply rl_end; [cbn; lia|reflexivity].
    + apply (lr_ok (fun _ => OpenMP) maxOp (fun s d => s + d) 1 1 1 (fun _ => 5) (fun _ => 5)); try lia; try reflexivity.
      apply rl_end; [cbn; lia|reflexivity].
  - intros s d Hs Hd. assert (s = 0) by lia. subst s. cbn.
    apply (red_two Z.add [3] [5] [3;5] 3 5); [apply red_one|apply red_one|apply Permutation_refl].
Qed.
Print Assumptions C42_glbReduce_max_refuted.

(** Field::reduce: over all ranks and sites, with the same operation locally and in MPI *)
Theorem C42_field_reduce : forall V (bk : Z -> backend) (op : V -> V -> V) ix ndeg n ranks out,
  associative op -> commutative op -> 0 < n -> distinct_addresses ix n ndeg ->
  (forall k, 0 <= k <= n -> fits (bk k) 0 k) ->
  field_reduce bk op ix ndeg n ranks out ->
  forall d, 0 <= d < ndeg ->
   total op (flat_map (fun m => map (fun i => m (ix i d)) (seqZ n)) ranks) = Some (out d).
Proof. intros V bk op ix ndeg n ranks out. apply field_reduce_main. Qed.
Print Assumptions C42_field_reduce.

(** C59: a kernel launched through the autotuner changes memory as a single run of the loop, also the first time,
    when it is run hundreds of times to be timed, provided it writes only fields captured for writing, each
    captured once; it fails only if no admissible block size exists *)
Theorem C59_tuning_transparent : forall V (launch : Z -> @fields V -> @fields V -> Prop) kern captured nmax tuned s r,
  (forall bs a a', launch bs a a' -> feq a' (kern a)) ->
  (forall a b, feq a b -> feq (kern a) (kern b)) ->
  (forall a f, ~ In f captured -> forall x, kern a f x = a f x) ->
  NoDup captured ->
  tuned_run launch captured nmax false tuned s r ->
  match r with
  | None => match tuned with Some bs => ~ (0 < bs <= nmax) | None => nmax <= 1 end
  | Some s' => feq (flds s') (kern (flds s))
  end.
Proof. intros V launch kern captured nmax tuned s r. apply tune_main. Qed.
Print Assumptions C59_tuning_transparent.
(** a kernel adding 1 to field 7 everywhere *)
Example C59_ex : let kern := fun (a : @fields Z) => updZ a 7 (fun x => a 7 x + 1) in
  (forall a b, feq a b -> feq (kern a) (kern b)) /\
  (forall a f, ~ In f [7] -> forall x, kern a f x = a f x) /\ NoDup [7] /\
  block_sizes 31 1 1024 = [1;2;4;8;16;32;64;128;256;512;1024].
Proof.
  cbn zeta. repeat split.
  - intros a b H f x. unfold updZ. destruct (f =? 7); [rewrite (H 7 x)|]; auto.
  - intros a f H x. unfold updZ. destruct (Z.eqb_spec f 7); auto. subst. exfalso. apply H. left; auto.
  - repeat constructor. intros [].
Qed.

(** nested tuning, with backups disabled, is transparent for kernels that can be repeated, such as the copies
    the backups are made of *)
Theorem C59_nested_tuning : forall V (launch : Z -> @fields V -> @fields V -> Prop) kern captured nmax tuned s s',
  (forall bs a a', launch bs a a' -> feq a' (kern a)) ->
  (forall a b, feq a b -> feq (kern a) (kern b)) ->
  (forall a, feq (kern (kern a)) (kern a)) ->
  tuned_run launch captured nmax true tuned s (Some s') ->
  feq (flds s') (kern (flds s)).
Proof. intros V launch kern captured nmax tuned s s'. apply tune_nested. Qed.
Print Assumptions C59_nested_tuning.

(** capturing the same field twice makes the tuner delete its backup twice *)
Theorem C59_double_capture_refuted : exists (launch : Z -> @fields Z -> @fields Z -> Prop) s,
  (forall bs a a', launch bs a a' -> feq a' a) /\ tuned_run launch [7;7] 1024 false None s None.
Proof.
  exists (fun _ a a' => a' = a), {| flds := fun _ _ => 0; baks := fun _ => NoBackup |}.
  split; [intros bs a a' -> f x; reflexivity|].
  apply tr_tune_ub with (s1 := fold_left (fun s f => begin_action f s) [7;7] {| flds := fun _ _ => 0; baks := fun _ => NoBackup |})
                        (f1 := fun _ _ => 0); try reflexivity.
  generalize (bench_launches 1024). intros l. induction l as [|b l IH].
  - apply la_nil. reflexivity.
  - eapply la_cons; [reflexivity|exact IH].
Qed.
Print Assumptions C59_double_capture_refuted.
