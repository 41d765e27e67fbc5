From Verif Require Import Base ParModel ParSpec.
From Coq Require Import Permutation.

Section Mem.
Context {V : Type}.
Notation mem := (mem V). Notation prog := (prog V).
Implicit Types (p : prog) (m mf : mem).

Definition agree (P : Z -> bool) (m m' : mem) := forall a, P a = true -> m a = m' a.

Lemma run_ext p : forall m m' : mem, (forall a, m a = m' a) -> forall a, run p m a = run p m' a.
Proof.
  induction p as [|a k IH|a v k IH]; intros m m' H x; cbn [run]; [auto| |].
  - rewrite H. auto.
  - apply IH. intros y. unfold store. destruct (y =? a); auto.
Qed.

Lemma run_agree R W p : (forall a, W a = true -> R a = true) -> confined R W p ->
  forall m m', agree R m m' -> agree R (run p m) (run p m').
Proof.
  intros HWR. induction p as [|a k IH|a v k IH]; cbn [confined run]; intros Hc m m' H; [auto| |].
  - destruct Hc as [Ha Hk]. rewrite (H a Ha). apply IH; auto.
  - destruct Hc as [Ha Hk]. apply IH; auto. intros x Hx. unfold store. destruct (x =? a); auto.
Qed.

Lemma run_frame R W p : confined R W p -> forall m a, W a = false -> run p m a = m a.
Proof.
  induction p as [|b k IH|b v k IH]; cbn [confined run]; intros Hc m a Ha; [auto| |].
  - apply IH; [apply Hc|auto].
  - rewrite IH; [|apply Hc|auto]. unfold store. destruct (Z.eqb_spec a b); [|auto].
    subst. destruct Hc. congruence.
Qed.

Lemma pstep_confined R W p m : confined R W p -> confined R W (fst (pstep p m)).
Proof. destruct p; cbn [confined pstep fst]; intuition auto. Qed.

Lemma pstep_run p m : forall a, run (fst (pstep p m)) (snd (pstep p m)) a = run p m a.
Proof. destruct p; cbn [run pstep fst snd]; auto. Qed.

Lemma pstep_frame R W p m a : confined R W p -> W a = false -> snd (pstep p m) a = m a.
Proof.
  destruct p as [|b k|b v k]; cbn [confined pstep snd]; auto.
  intros [Hb _] Ha. unfold store. destruct (Z.eqb_spec a b); auto. congruence.
Qed.

Lemma nth_error_set_nth {A} (l : list A) i j x : (i < length l)%nat ->
  nth_error (set_nth l i x) j = if Nat.eqb i j then Some x else nth_error l j.
Proof.
  revert i j. induction l as [|h t IH]; intros [|i] [|j]; cbn; try lia; auto.
  intros H. apply IH. lia.
Qed.

(** outcome of a race free pool: each address written by a thread holds what the thread run alone leaves *)
Definition Out (W : nat -> Z -> bool) (ps : list prog) (m mf : mem) : Prop :=
  (forall i p a, nth_error ps i = Some p -> W i a = true -> mf a = run p m a) /\
  (forall a, (forall i, (i < length ps)%nat -> W i a = false) -> mf a = m a).

Definition race_free (R W : nat -> Z -> bool) (n : nat) : Prop :=
  (forall i a, (i < n)%nat -> W i a = true -> R i a = true) /\
  (forall i j a, (i < n)%nat -> (j < n)%nat -> i <> j -> W i a = true -> R j a = false).

Lemma set_nth_length {A} (l : list A) i x : length (set_nth l i x) = length l.
Proof. revert i. induction l as [|h t IH]; intros [|i]; cbn; auto. Qed.

Lemma interleave_out R W sched : forall ps m ps' mf,
  race_free R W (length ps) ->
  (forall i p, nth_error ps i = Some p -> confined (R i) (W i) p) ->
  interleave sched ps m = (ps', mf) -> Forall (fun p => p = Ret) ps' ->
  Out W ps m mf.
Proof.
  induction sched as [|i rest IH]; intros ps m ps' mf Hrf Hc He Hf; cbn [interleave] in He.
  - injection He as -> ->. split; [|auto]. intros i p a Hp Ha.
    apply nth_error_In in Hp. rewrite Forall_forall in Hf. rewrite (Hf p Hp). reflexivity.
  - destruct (nth_error ps i) as [p|] eqn:Ep.
    2:{ eapply IH; eauto. }
    destruct (pstep p m) as [p' m'] eqn:Es.
    assert (Hi : (i < length ps)%nat) by (apply nth_error_Some; congruence).
    assert (Hp' : p' = fst (pstep p m)) by (rewrite Es; auto).
    assert (Hm' : m' = snd (pstep p m)) by (rewrite Es; auto).
    assert (HO : Out W (set_nth ps i p') m' mf).
    { eapply IH; eauto.
      - rewrite set_nth_length. auto.
      - intros j q Hq. rewrite nth_error_set_nth in Hq by auto. destruct (Nat.eqb_spec i j).
        + injection Hq as <-. subst j. rewrite Hp'. apply pstep_confined; auto.
        + auto. }
    destruct HO as [HO1 HO2]. split.
    + intros j q a Hq Ha.
      assert (Hj : (j < length ps)%nat) by (apply nth_error_Some; congruence).
      destruct (Nat.eq_dec i j) as [->|Hij].
      * assert (q = p) by congruence. subst q.
        rewrite (HO1 j p' a); [|rewrite nth_error_set_nth, Nat.eqb_refl by auto; auto|auto].
        rewrite Hp', Hm'. apply pstep_run.
      * rewrite (HO1 j q a); [|rewrite nth_error_set_nth by auto; destruct (Nat.eqb_spec i j); congruence|auto].
        destruct Hrf as [H1 H2].
        apply (run_agree (R j) (W j)); auto.
        intros x Hx. rewrite Hm'. apply (pstep_frame (R i) (W i)); auto.
        destruct (W i x) eqn:E; auto. rewrite (H2 i j x) in Hx; auto; congruence.
    + intros a Ha. rewrite HO2.
      * rewrite Hm'. apply (pstep_frame (R i) (W i)); auto.
      * intros j Hj. rewrite set_nth_length in Hj. auto.
Qed.


(** the serial loop has the same outcome *)
Lemma fold_out R W : forall ps m,
  race_free R W (length ps) ->
  (forall i p, nth_error ps i = Some p -> confined (R i) (W i) p) ->
  Out W ps m (fold_left (fun m p => run p m) ps m).
Proof.
  intros ps. revert R W. induction ps as [|p ps IH]; intros R W m Hrf Hc; cbn [fold_left].
  - split; auto. intros [|i] q a H; discriminate.
  - specialize (IH (fun i => R (S i)) (fun i => W (S i)) (run p m)). cbv beta in IH.
    destruct Hrf as [H1 H2]. cbn [length] in *.
    destruct IH as [I1 I2].
    { split; intros; [apply H1 with (i := S i); auto; lia | apply (H2 (S i) (S j)); auto; lia]. }
    { intros i q Hq. apply (Hc (S i)). exact Hq. }
    pose proof (Hc 0%nat p eq_refl) as Hc0.
    split.
    + intros [|i] q a Hq Ha.
      * cbn in Hq. injection Hq as <-. rewrite I2; auto.
        intros i Hi. destruct (W (S i) a) eqn:E; auto.
        assert (R 0%nat a = true) by (apply H1; auto; lia).
        rewrite (H2 (S i) 0%nat a) in H; auto; lia || congruence.
      * cbn in Hq. assert (Hi : (i < length ps)%nat) by (apply nth_error_Some; congruence).
        rewrite (I1 i q a Hq Ha).
        assert (HR : R (S i) a = true) by (apply H1; auto; lia).
        revert a HR Ha. intros a HR _.
        refine (run_agree (R (S i)) (W (S i)) q _ (Hc (S i) q Hq) _ _ _ a HR).
        -- intros b Hb. apply H1; auto; lia.
        -- intros x Hx. apply (run_frame (R 0%nat) (W 0%nat)); auto.
           destruct (W 0%nat x) eqn:E; auto. rewrite (H2 0%nat (S i) x) in Hx; auto; lia || congruence.
    + intros a Ha. rewrite I2.
      * apply (run_frame (R 0%nat) (W 0%nat)); auto. apply Ha. cbn; lia.
      * intros i Hi. apply (Ha (S i)). cbn; lia.
Qed.

Lemma forallb_seq_dec (f : nat -> bool) n :
  {i | (i < n)%nat /\ f i = true} + {forall i, (i < n)%nat -> f i = false}.
Proof.
  induction n as [|n [[i [Hi Hf]]|IH]].
  - right. lia.
  - left. exists i. split; auto.
  - destruct (f n) eqn:E.
    + left. exists n. split; auto.
    + right. intros i Hi. destruct (Nat.eq_dec i n); [subst; auto|apply IH; lia].
Qed.

Lemma Out_unique W ps m mf mf' : Out W ps m mf -> Out W ps m mf' -> forall a, mf a = mf' a.
Proof.
  intros [H1 H2] [G1 G2] a.
  destruct (forallb_seq_dec (fun i => W i a) (length ps)) as [[i [Hi Hw]]|Hn].
  - destruct (nth_error ps i) as [p|] eqn:E; [|apply nth_error_None in E; lia].
    rewrite (H1 i p a), (G1 i p a); auto.
  - rewrite H2, G2; auto.
Qed.

Lemma indep_pool body idx R W : NoDup idx -> indep body idx R W ->
  race_free (fun i => R (nth i idx 0)) (fun i => W (nth i idx 0)) (length (map body idx)) /\
  (forall i p, nth_error (map body idx) i = Some p -> confined (R (nth i idx 0)) (W (nth i idx 0)) p).
Proof.
  intros Hnd (Hc & Hwr & Hd). split.
  - rewrite map_length. split.
    + intros i b Hi. apply Hwr, nth_In; auto.
    + intros i j b Hi Hj Hij. apply Hd; try (apply nth_In; auto).
      intros E. apply Hij. eapply NoDup_nth; eauto.
  - intros i p Hp. rewrite nth_error_map in Hp. destruct (nth_error idx i) as [z|] eqn:E; [|discriminate].
    injection Hp as <-. rewrite (nth_error_nth idx i 0 E). apply Hc.
    eapply nth_error_In; eauto.
Qed.

Theorem par_serial body idx R W m m' :
  NoDup idx -> indep body idx R W -> par_exec idx body m m' ->
  forall a, m' a = serial_loop idx body m a.
Proof.
  intros Hnd Hi (sched & ps & mf & He & Hf & Hm) a. rewrite Hm.
  destruct (indep_pool body idx R W Hnd Hi) as [Hrf Hcc].
  pose proof (interleave_out _ _ sched _ m ps mf Hrf Hcc He Hf) as O1.
  pose proof (fold_out _ _ _ m Hrf Hcc) as O2.
  rewrite (Out_unique _ _ _ _ _ O1 O2). unfold serial_loop.
  assert (G : forall l m, fold_left (fun m p => run p m) (map body l) m = fold_left (fun m i => run (body i) m) l m).
  { clear. induction l as [|x l IH]; intros m; cbn [map fold_left]; auto. }
  now rewrite G.
Qed.

(** what each address holds afterwards *)
Lemma par_out body idx R W m m' :
  NoDup idx -> indep body idx R W -> par_exec idx body m m' ->
  (forall i a, In i idx -> W i a = true -> m' a = run (body i) m a) /\
  (forall a, (forall i, In i idx -> W i a = false) -> m' a = m a).
Proof.
  intros Hnd Hi (sched & ps & mf & He & Hf & Hm).
  destruct (indep_pool body idx R W Hnd Hi) as [Hrf Hcc].
  destruct (interleave_out _ _ sched _ m ps mf Hrf Hcc He Hf) as [O1 O2]. split.
  - intros i a Hin Hw. rewrite Hm. apply In_nth with (d := 0) in Hin. destruct Hin as (k & Hk & E).
    apply (O1 k).
    + rewrite nth_error_map. rewrite (nth_error_nth' idx 0 Hk). cbn. now rewrite E.
    + now rewrite E.
  - intros a Ha. rewrite Hm. apply O2. intros k Hk. rewrite map_length in Hk. apply Ha, nth_In; auto.
Qed.

(** a complete schedule always exists: run the bodies one after the other *)
Lemma run_alone : forall (p : prog) m ps i, nth_error ps i = Some p ->
  exists k, forall rest, interleave (repeat i k ++ rest) ps m = interleave rest (set_nth ps i Ret) (run p m).
Proof.
  assert (SS : forall (l : list prog) i x y, set_nth (set_nth l i x) i y = set_nth l i y).
  { induction l as [|h t IH]; intros [|i] x y; cbn; auto. f_equal. auto. }
  assert (SI : forall (l : list prog) i x, nth_error l i = Some x -> set_nth l i x = l).
  { induction l as [|h t IH]; intros [|i] x H; cbn in *; try discriminate; auto; [congruence|f_equal; auto]. }
  intros p. induction p as [|a k IH|a v k IH]; intros m ps i Hp.
  - exists 0%nat. intros rest. cbn. rewrite SI; auto.
  - assert (Hi : (i < length ps)%nat) by (apply nth_error_Some; congruence).
    destruct (IH (m a) m (set_nth ps i (k (m a))) i) as [n Hn].
    { rewrite nth_error_set_nth, Nat.eqb_refl by auto. auto. }
    exists (S n). intros rest. cbn [repeat app interleave]. rewrite Hp. cbn [pstep]. rewrite Hn, SS. reflexivity.
  - assert (Hi : (i < length ps)%nat) by (apply nth_error_Some; congruence).
    destruct (IH (store m a v) (set_nth ps i k) i) as [n Hn].
    { rewrite nth_error_set_nth, Nat.eqb_refl by auto. auto. }
    exists (S n). intros rest. cbn [repeat app interleave]. rewrite Hp. cbn [pstep]. rewrite Hn, SS. reflexivity.
Qed.

Lemma interleave_all : forall (todo done : list prog) m, Forall (fun p => p = Ret) done ->
  exists sched ps, interleave sched (done ++ todo) m = (ps, fold_left (fun m p => run p m) todo m) /\
    Forall (fun p => p = Ret) ps.
Proof.
  induction todo as [|p todo IH]; intros dn m Hd.
  - exists [], dn. rewrite app_nil_r. cbn. auto.
  - destruct (run_alone p m (dn ++ p :: todo) (length dn)) as [k Hk].
    { rewrite nth_error_app2, Nat.sub_diag by lia. reflexivity. }
    destruct (IH (dn ++ [Ret]) (run p m)) as (sched & ps & He & Hf).
    { apply Forall_app. split; auto. }
    exists (repeat (length dn) k ++ sched), ps. split; auto.
    rewrite Hk. cbn [fold_left]. rewrite <- He. f_equal.
    clear. induction dn as [|x dn IH]; cbn; [reflexivity|]. f_equal. auto.
Qed.

Theorem par_exists body idx m : par_exec idx body m (serial_loop idx body m).
Proof.
  destruct (interleave_all (map body idx) [] m ltac:(constructor)) as (sched & ps & He & Hf).
  exists sched, ps, (fold_left (fun m p => run p m) (map body idx) m). split; [exact He|]. split; auto.
  intros a. unfold serial_loop.
  assert (G : forall l m, fold_left (fun m p => run p m) (map body l) m = fold_left (fun m i => run (body i) m) l m).
  { clear. induction l as [|x l IH]; intros m; cbn [map fold_left]; auto. }
  now rewrite G.
Qed.

Lemma serial_ext body idx : forall m m' : mem, (forall a, m a = m' a) ->
  forall a, serial_loop idx body m a = serial_loop idx body m' a.
Proof.
  unfold serial_loop. induction idx as [|i idx IH]; intros m m' H a; cbn [fold_left]; auto.
  apply IH. apply run_ext. auto.
Qed.
End Mem.

(** ---- index sets ---- *)
Lemma in_rangeZ mn mx i : In i (rangeZ mn mx) <-> mn <= i < mx.
Proof.
  unfold rangeZ. rewrite in_map_iff. split.
  - intros [k [<- Hk]]. apply in_seqZ in Hk. lia.
  - intros H. exists (i - mn). split; [lia|]. apply in_seqZ. lia.
Qed.

Lemma NoDup_rangeZ mn mx : NoDup (rangeZ mn mx).
Proof. unfold rangeZ. apply Injective_map_NoDup; [intros a b; lia|apply NoDup_seqZ]. Qed.

Lemma to_int32_id z : -2147483648 <= z < 2147483648 -> to_int32 z = z.
Proof.
  intros H. unfold to_int32, two32. destruct (Z.ltb_spec z 0).
  - replace (z mod 4294967296) with (z + 4294967296) by (apply Z.mod_unique with (-1); lia).
    destruct (Z.ltb_spec (z + 4294967296) 2147483648); lia.
  - rewrite Z.mod_small by lia. destruct (Z.ltb_spec z 2147483648); lia.
Qed.

(** nested block/thread enumeration is the plain enumeration *)
Lemma seqZ_succ n : 0 <= n -> seqZ (n + 1) = seqZ n ++ [n].
Proof.
  intros H. unfold seqZ. replace (Z.to_nat (n + 1)) with (S (Z.to_nat n)) by lia.
  rewrite seq_S, map_app. cbn [map]. f_equal. f_equal. lia.
Qed.

Lemma seqZ_app n k : 0 <= n -> 0 <= k -> seqZ (n + k) = seqZ n ++ map (fun t => n + t) (seqZ k).
Proof.
  intros Hn Hk. revert k Hk. apply natlike_ind.
  - rewrite Z.add_0_r. cbn. now rewrite app_nil_r.
  - intros k Hk IH. replace (n + Z.succ k) with (n + k + 1) by lia. rewrite seqZ_succ by lia. rewrite IH.
    replace (Z.succ k) with (k + 1) by lia. rewrite seqZ_succ by lia. rewrite map_app, app_assoc. reflexivity.
Qed.

Lemma blocks_flat bs g : 0 <= bs -> 0 <= g ->
  flat_map (fun b => map (fun t => b * bs + t) (seqZ bs)) (seqZ g) = seqZ (g * bs).
Proof.
  intros Hbs Hg. revert g Hg. apply natlike_ind.
  - reflexivity.
  - intros g Hg IH. replace (Z.succ g) with (g + 1) by lia. rewrite seqZ_succ by lia.
    rewrite flat_map_app. cbn [flat_map]. rewrite IH, app_nil_r.
    replace ((g + 1) * bs) with (g * bs + bs) by ring. rewrite seqZ_app by nia. reflexivity.
Qed.

Lemma filter_all {A} (f : A -> bool) l : (forall x, In x l -> f x = true) -> filter f l = l.
Proof.
  induction l as [|x l IH]; intros H; cbn; auto. rewrite H by (left; auto). f_equal. apply IH. intros; apply H; right; auto.
Qed.
Lemma filter_none {A} (f : A -> bool) l : (forall x, In x l -> f x = false) -> filter f l = [].
Proof.
  induction l as [|x l IH]; intros H; cbn; auto. rewrite H by (left; auto). apply IH. intros; apply H; right; auto.
Qed.

Lemma filter_range mn mx n : 0 <= mx - mn <= n ->
  filter (fun i => i <? mx) (map (fun k => mn + k) (seqZ n)) = rangeZ mn mx.
Proof.
  intros H. replace n with ((mx - mn) + (n - (mx - mn))) by lia. rewrite seqZ_app by lia.
  rewrite map_app, filter_app. rewrite filter_all, filter_none; [rewrite app_nil_r; reflexivity| |].
  - intros x Hx. rewrite map_map in Hx. apply in_map_iff in Hx. destruct Hx as (k & <- & Hk). apply in_seqZ in Hk. lia.
  - intros x Hx. apply in_map_iff in Hx. destruct Hx as (k & <- & Hk). apply in_seqZ in Hk. lia.
Qed.

Lemma ceil_bounds n bs : 0 < bs -> 0 < n -> n <= (n + bs - 1) / bs * bs <= n + bs - 1.
Proof.
  intros Hb Hn. pose proof (Z.div_mod (n + bs - 1) bs ltac:(lia)). pose proof (Z.mod_pos_bound (n + bs - 1) bs ltac:(lia)). nia.
Qed.

Lemma cuda_main tmin tmax mn mx bs : 0 <= mn <= mx -> 0 < bs ->
  mn + (mx - mn + bs - 1) / bs * bs <= lim tmin tmax ->
  mx < lim tmin tmax -> (mx - mn) + bs <= 4294967296 ->
  cuda_indices tmin tmax mn mx bs = rangeZ mn mx.
Proof.
  intros Hm Hbs Hl Hlx H32. unfold cuda_indices.
  assert (Hc : conv (common tmin tmax) (mx - mn) = mx - mn).
  { destruct tmin, tmax; cbn [common conv]; auto. apply to_int32_id. unfold lim, common in *. lia. }
  rewrite Hc. destruct (Z.ltb_spec 0 (mx - mn)) as [Hlen|Hlen].
  2:{ unfold rangeZ. replace (mx - mn) with 0 by lia. reflexivity. }
  set (g := (mx - mn + bs - 1) / bs) in *.
  assert (Hlim : lim tmin tmax <= 4294967296) by (unfold lim; destruct (common tmin tmax); lia).
  pose proof (ceil_bounds (mx - mn) bs Hbs Hlen) as Hcb. fold g in Hcb.
  assert (Hg0 : 0 <= g) by (apply Z.div_pos; lia).
  assert (Hg : grid_blocks tmin tmax mn mx bs = g).
  { unfold grid_blocks. rewrite Hc. destruct (common tmin tmax).
    - unfold two32. rewrite <- Zdiv.Zminus_mod_idemp_l, Z.mod_mod by lia. rewrite Zdiv.Zminus_mod_idemp_l, Z.mod_small by lia.
      reflexivity.
    - unfold two32. fold g. apply Z.mod_small. nia. }
  rewrite Hg.
  assert (Hk : flat_map (fun b => map (fun t => kernel_index tmin tmax mn b bs t) (seqZ bs)) (seqZ g) =
               map (fun k => mn + k) (seqZ (g * bs))).
  { rewrite <- (blocks_flat bs g) by lia. rewrite flat_map_concat_map, flat_map_concat_map, concat_map, map_map.
    f_equal. apply map_ext_in. intros b Hb. apply in_seqZ in Hb. rewrite map_map. apply map_ext_in. intros t Ht.
    apply in_seqZ in Ht. unfold kernel_index.
    assert (b * bs + bs <= g * bs) by nia.
    assert (0 <= b * bs) by nia.
    unfold two32. rewrite (Z.mod_small (b * bs)) by lia.
    assert (E : ((mn + b * bs) mod 4294967296 + t) mod 4294967296 = mn + (b * bs + t)).
    { rewrite Zdiv.Zplus_mod_idemp_l, Z.mod_small by lia. lia. }
    destruct tmin, tmax; cbn [common conv]; try rewrite E; try lia.
    apply to_int32_id. unfold lim, common in Hl. lia. }
  rewrite Hk. apply filter_range. lia.
Qed.

Lemma launched_fits b mn mx : fits b mn mx -> launched b mn mx = rangeZ mn mx.
Proof.
  destruct b as [|tmin tmax bs]; cbn [launched fits]; [reflexivity|].
  intros (H0 & H1 & H2 & H3 & H4). apply cuda_main; auto.
Qed.

(** 64 bits loops counted from a 32 bits lower end never get past 2^32 *)
Lemma cuda_wrap mx bs i : In i (cuda_indices I32 I64 0 mx bs) -> i < two32.
Proof.
  unfold cuda_indices. destruct (0 <? _); [|intros []]. intros H. apply filter_In in H. destruct H as [H _].
  apply in_flat_map in H. destruct H as (b & _ & H). apply in_map_iff in H. destruct H as (t & <- & _).
  unfold kernel_index. cbn [common conv]. apply Z.mod_pos_bound. reflexivity.
Qed.

(** ---- autotuning ---- *)
Section Tune.
Context {V : Type}.
Implicit Types s : @tstate V.

Lemma begin_all captured : forall s, NoDup captured ->
  let s1 := fold_left (fun s f => begin_action f s) captured s in
  flds s1 = flds s /\ (forall f, In f captured -> baks s1 f = Backup (flds s f)) /\
  (forall f, ~ In f captured -> baks s1 f = baks s f).
Proof.
  induction captured as [|f l IH]; intros s Hnd; cbn [fold_left].
  - repeat split; auto; intros f [].
  - inversion Hnd as [|x y Hx Hy]; subst. specialize (IH (begin_action f s) Hy). cbv zeta in IH. destruct IH as (I1 & I2 & I3).
    cbn [begin_action flds baks] in *. repeat split; auto.
    + intros g [<-|Hg].
      * rewrite I3 by auto. unfold updZ. now rewrite Z.eqb_refl.
      * now rewrite I2.
    + intros g Hg. rewrite I3 by (intros H; apply Hg; right; auto). unfold updZ.
      destruct (Z.eqb_spec g f); auto. subst. exfalso. apply Hg. left; auto.
Qed.

Lemma end_all captured (ori : @fields V) : forall s, NoDup captured ->
  (forall f, In f captured -> baks s f = Backup (ori f)) ->
  exists s2, end_actions captured s = Some s2 /\
   (forall f, In f captured -> flds s2 f = ori f) /\ (forall f, ~ In f captured -> flds s2 f = flds s f).
Proof.
  induction captured as [|f l IH]; intros s Hnd Hb; cbn [end_actions].
  - exists s. repeat split; auto. intros f [].
  - inversion Hnd as [|x y Hx Hy]; subst. unfold end_action. rewrite Hb by (left; auto).
    destruct (IH {| flds := updZ (flds s) f (ori f); baks := updZ (baks s) f Dangling |} Hy) as (s2 & E & H1 & H2).
    { intros g Hg. cbn. unfold updZ. destruct (Z.eqb_spec g f); [subst; contradiction|]. apply Hb. right; auto. }
    exists s2. split; auto. cbn [flds] in H2. split.
    + intros g [<-|Hg]; [|auto]. rewrite H2 by auto. unfold updZ. now rewrite Z.eqb_refl.
    + intros g Hg. rewrite H2 by (intros H; apply Hg; right; auto). unfold updZ.
      destruct (Z.eqb_spec g f); auto. subst. exfalso. apply Hg. left; auto.
Qed.

Lemma launches_inv (launch : Z -> fields -> fields -> Prop) (P : fields -> Prop) l (s s' : @fields V) :
  (forall a b, feq a b -> P a -> P b) ->
  (forall b a a', In b l -> launch b a a' -> P a -> P a') -> launches launch l s s' -> P s -> P s'.
Proof.
  intros He Hl H. induction H as [s s' H|b l s s1 s2 H1 H2 IH]; intros Hp.
  - eapply He; [|exact Hp]. intros f x. symmetry. apply H.
  - apply IH; [intros; eapply Hl; eauto; right; auto|]. eapply Hl; eauto. left; auto.
Qed.

(** hypotheses on a launch: it is a function [kern] of the fields (C43: whatever the block size and the schedule),
    it writes only captured fields *)
Lemma tune_main (launch : Z -> @fields V -> @fields V -> Prop) (kern : fields -> fields) captured nmax tuned s r :
  (forall bs a a', launch bs a a' -> feq a' (kern a)) ->
  (forall a b, feq a b -> feq (kern a) (kern b)) ->
  (forall a f, ~ In f captured -> forall x, kern a f x = a f x) ->
  NoDup captured ->
  tuned_run launch captured nmax false tuned s r ->
  match r with
  | None => match tuned with Some bs => ~ (0 < bs <= nmax) | None => nmax <= 1 end
  | Some s' => feq (flds s') (kern (flds s))
  end.
Proof.
  intros Hk Hext Hfr Hnd H. inversion H; subst; cbn [flds]; auto; try discriminate.
  - eapply Hk; eauto.
  - exfalso. destruct (begin_all captured s Hnd) as (_ & B2 & _).
    destruct (end_all captured (flds s) {| flds := f1; baks := baks (fold_left (fun s f => begin_action f s) captured s) |} Hnd) as (s2 & E & _).
    { exact B2. }
    congruence.
  - destruct (begin_all captured s Hnd) as (B1 & B2 & _).
    destruct (end_all captured (flds s) {| flds := f1; baks := baks (fold_left (fun s f => begin_action f s) captured s) |} Hnd) as (s2' & E & E1 & E2).
    { exact B2. }
    assert (s2' = s2) by congruence. subst s2'.
    assert (Q : feq (flds s2) (flds s)).
    { intros f x. destruct (in_dec Z.eq_dec f captured) as [Hi|Hi].
      - rewrite E1; auto.
      - rewrite E2 by auto. cbn [flds].
        rewrite B1 in *.
        apply (launches_inv launch (fun a => forall x, a f x = flds s f x) (bench_launches nmax) (flds s) f1); auto.
        + intros a b Hab Ha y. rewrite <- Hab. auto.
        + intros b a a' _ Hl Ha y. rewrite (Hk _ _ _ Hl). rewrite Hfr; auto. }
    intros f x. rewrite (Hk bs (flds s2) f' ltac:(assumption) f x). apply Hext. exact Q.
Qed.

(** nested tuning (fields are not backed up): correct for kernels that can be repeated *)
Lemma tune_nested (launch : Z -> @fields V -> @fields V -> Prop) (kern : fields -> fields) captured nmax tuned s s' :
  (forall bs a a', launch bs a a' -> feq a' (kern a)) ->
  (forall a b, feq a b -> feq (kern a) (kern b)) ->
  (forall a, feq (kern (kern a)) (kern a)) ->
  tuned_run launch captured nmax true tuned s (Some s') ->
  feq (flds s') (kern (flds s)).
Proof.
  intros Hk Hext Hid H. inversion H; subst; cbn [flds]; auto; try discriminate.
  - eapply Hk; eauto.
  - assert (Q : feq (kern f1) (kern (flds s))).
    { apply (launches_inv launch (fun a => feq (kern a) (kern (flds s))) (bench_launches nmax) (flds s) f1); auto.
      - intros a b Hab Ha f x. rewrite <- (Ha f x). apply Hext. intros g y. symmetry. apply Hab.
      - intros b a a' _ Hl Ha f x. rewrite <- (Ha f x). rewrite <- (Hid a f x). apply Hext. exact (Hk _ _ _ Hl).
      - intros f x. reflexivity. }
    intros f x. rewrite (Hk bs f1 f' ltac:(assumption) f x). apply Q.
Qed.
End Tune.
