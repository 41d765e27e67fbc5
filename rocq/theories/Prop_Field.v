(** Property theorems C44-C46: the Field object.  Each theorem is closed by [exact]. *)
From Coq Require Import Reals Permutation.
From Verif Require Import Base GeometryModel GeometrySpec HaloModel Prop_Geometry ParModel ParSpec ReduceModel ReduceSpec
  FieldModel FieldSpec FieldProofs FieldStorage FieldRefute FieldAlgModel FieldAlgSpec FieldAlgProofs FieldAlgEnds.
Open Scope Z_scope.

(** C44: whatever the program does to a field, if it declares each change of the content before updating (by dropping a writable
    reference when it is the last, or by an explicit invalidation), after the update every border site holds the current
    value of its owner; even if the update found the halo marked as valid and did not communicate *)
Theorem C44_halo_fresh : forall (A : Type) g p garbage (h : list (@op A)) u s, valid_grid g = true ->
  good_scheds g (h ++ [u]) -> updates u -> disciplined (h ++ [u]) ->
  run g (new_field p garbage) (h ++ [u]) = Some s -> halo_fresh g (content s).
Proof. exact (fun A g p garbage h u s Hv => @halo_main_fresh A g Hv p garbage h u s). Qed.
Print Assumptions C44_halo_fresh.

(** the same for programs made of parallel loops and updates, when each loop changing the field captures first a writable
    reference to it; the other captures, their number and the copies of the loop body are free *)
Theorem C44_loops : forall (A : Type) (l : list (@item A)), Forall good_item l -> disciplined (flat_map expand l).
Proof. exact (fun A l H => proj1 (loops_disciplined l H)). Qed.
Print Assumptions C44_loops.

(** the edges hold the current values after each updateEdges, with no condition on the program: their flag is never set, so
    that they are always communicated *)
Theorem C44_edges_fresh : forall (A : Type) g p garbage (h : list (@op A)) force sched s, valid_grid g = true -> good_sched g sched ->
  run g (new_field p garbage) (h ++ [UpdateEdges force sched]) = Some s -> edges_fresh g (content s).
Proof. exact (fun A g p garbage h force sched s Hv => @edges_main_fresh A g Hv p garbage h force sched s). Qed.
Print Assumptions C44_edges_fresh.

(** with halo and edges allocated, no sequence of operations fails *)
Theorem C44_never_fails : forall (A : Type) g garbage (h : list (@op A)), valid_grid g = true -> good_scheds g h ->
  exists s, run g (new_field WITH_HALO_EDGES garbage) h = Some s.
Proof. exact (fun A g garbage h Hv => @run_total A g Hv garbage h). Qed.
Print Assumptions C44_never_fails.
Example C44_ex : good_sched sg ss /\ updates (@UpdateHalo Z false ss) /\
  Forall good_item [Update (@UpdateHalo Z false ss); Loop [true; false] 2 (Some put_one); Loop [false] 1 None; Update (UpdateEdges false ss)].
Proof. split; [exact good_ss|]. split; [exact I|]. repeat constructor. Qed.

(** a loop capturing a read-only reference first and a writable one to the same field after *)
Theorem C44_reader_first_refuted : exists g p garbage (h : list (@op Z)) s, valid_grid g = true /\
  h = [UpdateHalo false ss] ++ par_loop [false; true] 0 (Some put_one) ++ [UpdateHalo false ss] /\
  run g (new_field p garbage) h = Some s /\ ~ halo_fresh g (content s).
Proof. exact (match bad_loop_stale with ex_intro _ s (conj H1 H2) =>
  ex_intro _ sg (ex_intro _ WITH_HALO (ex_intro _ zero_data (ex_intro _ bad_loop (ex_intro _ s (conj eq_refl (conj eq_refl (conj H1 H2))))))) end). Qed.
Print Assumptions C44_reader_first_refuted.
(** a read-only reference kept alive across the loop that writes *)
Theorem C44_kept_reference_refuted : exists g p garbage (h : list (@op Z)) s, valid_grid g = true /\
  h = [UpdateHalo false ss; GetRef false] ++ par_loop [true] 0 (Some put_one) ++ [UpdateHalo false ss; DropRef false] /\
  run g (new_field p garbage) h = Some s /\ ~ halo_fresh g (content s).
Proof. exact (match bad_kept_stale with ex_intro _ s (conj H1 H2) =>
  ex_intro _ sg (ex_intro _ WITH_HALO (ex_intro _ zero_data (ex_intro _ bad_kept (ex_intro _ s (conj eq_refl (conj eq_refl (conj H1 H2))))))) end). Qed.
Print Assumptions C44_kept_reference_refuted.
(** a copy from a field living in another memory space, whose halo was not updated *)
Theorem C44_memory_space_copy_refuted : exists g p garbage (h : list (@op Z)) s src, valid_grid g = true /\
  h = [UpdateHalo false ss] ++ [CudaCopy src] ++ [UpdateHalo false ss] /\
  run g (new_field p garbage) h = Some s /\ ~ halo_fresh g (content s).
Proof. exact (match bad_memcpy_stale with ex_intro _ s (conj H1 H2) =>
  ex_intro _ sg (ex_intro _ WITH_HALO (ex_intro _ zero_data (ex_intro _ bad_memcpy (ex_intro _ s (ex_intro _ _ (conj eq_refl (conj eq_refl (conj H1 H2)))))))) end). Qed.
Print Assumptions C44_memory_space_copy_refuted.

(** C45: (site, degree) to storage position is one-to-one onto the allocated positions, for both layouts *)
Theorem C45_index : forall l n ext, 0 < n -> 0 < ext < 2147483648 ->
  (forall s d, 0 <= s < ext -> 0 <= d < n -> 0 <= index l n ext s d < ext * n) /\
  (forall s d s' d', 0 <= s < ext -> 0 <= d < n -> 0 <= s' < ext -> 0 <= d' < n -> index l n ext s d = index l n ext s' d' -> s = s' /\ d = d') /\
  (forall k, 0 <= k < ext * n -> exists s d, 0 <= s < ext /\ 0 <= d < n /\ index l n ext s d = k).
Proof. exact (fun l n ext Hn He => conj (index_range l n ext Hn He) (conj (index_inj l n ext Hn He) (index_surj l n ext Hn He))). Qed.
Print Assumptions C45_index.
(** the number of sites goes through an int *)
Theorem C45_large_refuted : exists n ext d, 0 < n /\ 0 < ext /\ 0 < d < n /\ index GPU n ext 0 d = index GPU n ext 0 0.
Proof. exact (ex_intro _ 2 (ex_intro _ 4294967296 (ex_intro _ 1 (conj eq_refl (conj eq_refl (conj (conj eq_refl eq_refl) eq_refl)))))). Qed.
Print Assumptions C45_large_refuted.

(** f[site][i1]...[ik] reaches the degree of freedom at the row-major position of (i1,...,ik), for both layouts, any number of
    indices and any size in bytes of the fundamental type *)
Theorem C45_subscripts : forall l sz exts ext site idx, 0 < sz -> sz * prodZ exts < 2147483648 -> in_box idx exts ->
  element l sz exts ext site idx = Some (index l (nDegs exts) ext site (row_major idx exts)).
Proof. exact element_ok. Qed.
Print Assumptions C45_subscripts.
Example C45_ex : in_box [3;2;1;1] [4;3;3;2] /\ 8 * prodZ [4;3;3;2] < 2147483648 /\
  element GPU 8 [4;3;3;2] 1000 7 [3;2;1;1] = Some 69007 /\ element CPU 8 [4;3;3;2] 1000 7 [3;2;1;1] = Some (7 * 72 + 69).
Proof. split; [apply in_boxb_spec; reflexivity|]. split; [reflexivity|]. split; reflexivity. Qed.

(** with the GPU layout, f[site]+=g[site] on components with more than one index touches elements out of the site: for a color
    (3 complex numbers) the degrees 0,2,...,10 instead of 0,...,5 *)
Theorem C45_site_sum_refuted : selfop_degs 8 [2] (nDegs [3; 2]) = [0; 2; 4; 6; 8; 10].
Proof. exact eq_refl. Qed.
Print Assumptions C45_site_sum_refuted.

(** the halo exchange moves all the degrees of freedom of each site, whatever the layout and the order in which the received buffer
    is unpacked; nothing else changes *)
Theorem C45_halo_words : forall V g l n ext (sched : Z -> list Z) order (w : Z -> table V), valid_grid g = true -> 0 < n ->
  locVol g + bordVol g <= ext < 2147483648 -> good_sched g sched -> Permutation order (seqZ (bordVol g)) ->
  forall r, 0 <= r < nranks g -> exists w', updateHaloWords g l n ext sched order w r = Some w' /\
  (forall i d, locVol g <= i < locVol g + bordVol g -> 0 <= d < n ->
     exists gc r' i', glbCoordOfLoclx (rank_labels g r) i = Some gc /\ getLoclxAndRankOfCoords g gc = (r', i') /\
       0 <= r' < nranks g /\ 0 <= i' < locVol g /\ w' (index l n ext i d) = w r' (index l n ext i' d)) /\
  (forall i d, 0 <= i < ext -> ~ (locVol g <= i < locVol g + bordVol g) -> 0 <= d < n -> w' (index l n ext i d) = w r (index l n ext i d)).
Proof. exact words_main. Qed.
Print Assumptions C45_halo_words.
Example C45_ex_words : locVol sg + bordVol sg <= 32 < 2147483648 /\ good_sched sg ss /\
  option_map (fun w' => map w' [0; 16; 17; 48; 31]) (updateHaloWords sg GPU 3 32 ss (rev (seqZ (bordVol sg))) (fun r a => Some (100 * r + a)) 0)
  = Some [Some 0; Some 101; Some 103; Some 133; Some 114].
Proof. split; [vm_compute; split; [discriminate|reflexivity]|]. split; [exact good_ss|]. vm_compute. reflexivity. Qed.

(** C46: the operators act on each component of each bulk site and nothing else, also when the two fields are the same; for any
    schedule of the loop *)
Theorem C46_elementwise : forall ix nDeg nSites bk p q, distinct_addresses ix nSites nDeg -> 0 < nSites ->
  (forall k, 0 <= k <= nSites -> fits (bk k) 0 k) -> p = q \/ disjoint ix nDeg nSites p q ->
  let becomes (o : mem R -> mem R -> Prop) (f : R -> R -> R) := forall m, (exists m', o m m') /\ forall m', o m m' ->
     (forall s d, 0 <= s < nSites -> 0 <= d < nDeg -> m' (p + ix s d) = f (m (p + ix s d)) (m (q + ix s d))) /\
     (forall a, ~ occupies ix nDeg nSites p a -> m' a = m a) in
  becomes (add_assign ix nDeg nSites bk p q) (fun x y => (x + y)%R) /\
  becomes (sub_assign ix nDeg nSites bk p q) (fun x y => (x - y)%R) /\
  becomes (assign ix nDeg nSites bk p q) (fun x y => y).
Proof. exact (fun ix nDeg nSites bk p q Hix Hn Hbk Hpq =>
  let K f := fun m => conj (loop_ends ix nDeg nSites bk Hn Hbk f p q m) (loop_out ix nDeg nSites bk Hix Hn Hbk f p q Hpq m) in
  conj (K _) (conj (K _) (K _))). Qed.
Print Assumptions C46_elementwise.
Theorem C46_scalar : forall ix nDeg nSites bk p c, distinct_addresses ix nSites nDeg -> 0 < nSites ->
  (forall k, 0 <= k <= nSites -> fits (bk k) 0 k) ->
  let becomes (o : mem R -> mem R -> Prop) (f : R -> R) := forall m, (exists m', o m m') /\ forall m', o m m' ->
     (forall s d, 0 <= s < nSites -> 0 <= d < nDeg -> m' (p + ix s d) = f (m (p + ix s d))) /\
     (forall a, ~ occupies ix nDeg nSites p a -> m' a = m a) in
  becomes (mul_assign ix nDeg nSites bk p c) (fun x => (x * c)%R) /\
  becomes (div_assign ix nDeg nSites bk p c) (fun x => (x / c)%R) /\
  becomes (reset ix nDeg nSites bk p) (fun x => 0%R).
Proof. exact (fun ix nDeg nSites bk p c Hix Hn Hbk =>
  let K f := fun m => conj (loop_ends ix nDeg nSites bk Hn Hbk f p p m) (loop_out ix nDeg nSites bk Hix Hn Hbk f p p (or_introl eq_refl) m) in
  conj (K _) (conj (K _) (K _))). Qed.
Print Assumptions C46_scalar.

(** the scalar product, and so the squared norm, is the sum over ranks, sites and components; the fields are left unchanged *)
Theorem C46_scalar_product : forall ix nDeg nSites bk p q b tmp ranks ranks' out, distinct_addresses ix nSites nDeg -> 0 < nSites ->
  (forall k, 0 <= k <= nSites -> fits (bk k) 0 k) ->
  (forall a, occupies1 nSites b a -> ~ occupies ix nDeg nSites p a /\ ~ occupies ix nDeg nSites q a /\ ~ occupies1 nSites tmp a) ->
  scalar_prod ix nDeg nSites bk p q b tmp ranks ranks' out ->
  out = dot ix nDeg nSites p q ranks /\
  Forall2 (fun m m' => forall a, ~ occupies1 nSites b a -> ~ occupies1 nSites tmp a -> m' a = m a) ranks ranks'.
Proof. exact (fun ix nDeg nSites bk p q b tmp ranks ranks' out Hix Hn Hbk Hb => scalar_prod_out ix nDeg nSites bk Hn Hbk p q b tmp Hb ranks ranks' out). Qed.
Print Assumptions C46_scalar_product.

(** normalize makes the norm over all the ranks the requested one by scaling, and returns old norm over new norm *)
Theorem C46_normalize : forall ix nDeg nSites bk p b tmp newNorm ranks ranks' ret, distinct_addresses ix nSites nDeg -> 0 < nSites ->
  (forall k, 0 <= k <= nSites -> fits (bk k) 0 k) ->
  (forall a, occupies1 nSites b a -> ~ occupies ix nDeg nSites p a /\ ~ occupies1 nSites tmp a) ->
  (forall a, occupies1 nSites tmp a -> ~ occupies ix nDeg nSites p a) ->
  normalize ix nDeg nSites bk p b tmp newNorm ranks ranks' ret -> (dot ix nDeg nSites p p ranks <> 0)%R ->
  let norm r := sqrt (dot ix nDeg nSites p p r) in
  Forall2 (fun m m' : mem R => forall s d, 0 <= s < nSites -> 0 <= d < nDeg -> m' (p + ix s d) = (m (p + ix s d)%Z * (newNorm / norm ranks))%R) ranks ranks' /\
  norm ranks' = Rabs newNorm /\ (newNorm <> 0 -> ret * newNorm = norm ranks)%R.
Proof. exact (fun ix nDeg nSites bk p b tmp newNorm ranks ranks' ret Hix Hn Hbk Hb Ht => normalize_out ix nDeg nSites bk Hix Hn Hbk p b tmp Hb Ht newNorm ranks ranks' ret). Qed.
Print Assumptions C46_normalize.

(** and both always produce a result, on any number of ranks *)
Theorem C46_ends : forall ix nDeg nSites bk p q b tmp newNorm ranks, ranks <> [] ->
  (exists ranks' out, scalar_prod ix nDeg nSites bk p q b tmp ranks ranks' out) /\
  (exists ranks' ret, normalize ix nDeg nSites bk p b tmp newNorm ranks ranks' ret).
Proof. exact (fun ix nDeg nSites bk p q b tmp newNorm ranks H => conj (scalar_prod_ends ix nDeg nSites bk p q b tmp ranks H) (normalize_ends ix nDeg nSites bk p b tmp newNorm ranks H)). Qed.
Print Assumptions C46_ends.

(** the two-field normalize gives instead the norm newNorm times the square root of the old norm *)
Theorem C46_normalize_of_refuted : forall ix nDeg nSites bk p q b tmp newNorm ranks ranks' ret, distinct_addresses ix nSites nDeg -> 0 < nSites ->
  (forall k, 0 <= k <= nSites -> fits (bk k) 0 k) -> p = q \/ disjoint ix nDeg nSites p q ->
  (forall a, occupies1 nSites b a -> ~ occupies ix nDeg nSites q a /\ ~ occupies1 nSites tmp a) ->
  (forall a, occupies1 nSites tmp a -> ~ occupies ix nDeg nSites q a) ->
  normalize_of ix nDeg nSites bk p q b tmp newNorm ranks ranks' ret -> (dot ix nDeg nSites q q ranks <> 0)%R ->
  sqrt (dot ix nDeg nSites p p ranks') = (Rabs newNorm * sqrt (sqrt (dot ix nDeg nSites q q ranks)))%R.
Proof. exact (fun ix nDeg nSites bk p q b tmp newNorm ranks ranks' ret Hix Hn Hbk Hpq Hb Ht => normalize_of_out ix nDeg nSites bk Hix Hn Hbk p q b tmp Hpq Hb Ht newNorm ranks ranks' ret). Qed.
Print Assumptions C46_normalize_of_refuted.
(** 10 sites of 2 components in the CPU layout: fields at 0 and 100, buffers at 200 and 300 *)
Example C46_ex : let ix := index CPU 2 10 in distinct_addresses ix 10 2 /\ (forall k, 0 <= k <= 10 -> fits OpenMP 0 k) /\
  disjoint ix 2 10 0 100 /\ (forall a, occupies1 10 200 a -> ~ occupies ix 2 10 0 a /\ ~ occupies1 10 300 a) /\
  (forall a, occupies1 10 300 a -> ~ occupies ix 2 10 0 a).
Proof.
  cbv zeta. unfold index, distinct_addresses, disjoint, occupies, occupies1, fits. split; [intros; lia|]. split; [intros; lia|].
  split; [intros a (s & d & H1 & H2 & H3) (s' & d' & G1 & G2 & G3); lia|]. split.
  - intros a (s & H1 & H2). split; [intros (s' & d' & G1 & G2 & G3); lia|intros (s' & G1 & G2); lia].
  - intros a (s & H1 & H2) (s' & d' & G1 & G2 & G3). lia.
Qed.
