(** vector_remap_t: from an index map that is one-to-one on the elements of all the ranks. *)
From Verif Require Import Base HaloModel AllToAllModel AllToAllSpec AllToAllProofs AllToAllExch AllToAllMain AllToAllSetup.

Lemma filter_prod_len {A B} (P : A * B -> bool) (l : list A) (m : list B) :
  Z.of_nat (length (filter P (list_prod l m))) = sumZ (map (fun a => Z.of_nat (length (filter (fun b => P (a, b)) m))) l).
Proof.
  induction l as [|a l IH]; [reflexivity|]. cbn [list_prod map]. rewrite filter_app, app_length, Nat2Z.inj_add, IH.
  cbn [sumZ fold_right]. f_equal. clear IH. induction m as [|b m IH]; [reflexivity|]. cbn [map filter].
  destruct (P (a, b)); cbn [length]; lia.
Qed.
Lemma NoDup_app {A} (l m : list A) : NoDup l -> NoDup m -> (forall x, In x l -> In x m -> False) -> NoDup (l ++ m).
Proof.
  intros Hl Hm Hd. induction Hl as [|a l Ha Hl IH]; [exact Hm|]. cbn [app]. constructor.
  - rewrite in_app_iff. intros [H|H]; [contradiction|]. exact (Hd a (or_introl eq_refl) H).
  - apply IH. intros x H1 H2. exact (Hd x (or_intror H1) H2).
Qed.
Lemma NoDup_list_prod {A B} (l : list A) (m : list B) : NoDup l -> NoDup m -> NoDup (list_prod l m).
Proof.
  intros Hl Hm. induction Hl as [|a l Ha Hl IH]; [constructor|]. cbn [list_prod]. apply NoDup_app.
  - apply Injective_map_NoDup; [intros x y E; congruence|assumption].
  - exact IH.
  - intros [x y] H1 H2. apply in_map_iff in H1 as (z & E & _). apply in_prod_iff in H2 as [H2 _]. congruence.
Qed.
Lemma sum_le_eq (f : Z -> Z) c L : (forall x, In x L -> f x <= c) -> sumZ (map f L) = c * Z.of_nat (length L) -> forall x, In x L -> f x = c.
Proof.
  assert (Hle : forall L, (forall x, In x L -> f x <= c) -> sumZ (map f L) <= c * Z.of_nat (length L)).
  { clear L. induction L as [|y L IH]; intros H; [cbn; lia|]. cbn [map length]. cbn [sumZ fold_right]. fold (sumZ (map f L)).
    pose proof (IH (fun x Hx => H x (or_intror Hx))). pose proof (H y (or_introl eq_refl)). lia. }
  induction L as [|y L IH]; intros H E x Hx; [contradiction|]. cbn [map length] in E. cbn [sumZ fold_right] in E. fold (sumZ (map f L)) in E.
  pose proof (Hle L (fun x Hx => H x (or_intror Hx))). pose proof (H y (or_introl eq_refl)).
  destruct Hx as [<-|Hx]; [lia|]. apply IH; [|lia|assumption]. intros; apply H; now right.
Qed.
Lemma sumZ_map_ext (f g : Z -> Z) L : (forall x, In x L -> f x = g x) -> sumZ (map f L) = sumZ (map g L).
Proof. intros H. f_equal. now apply map_ext_in. Qed.
Lemma sum_count {A} (h : A -> Z) N (l : list A) : (forall a, In a l -> 0 <= h a < N) ->
  sumZ (map (fun q => Z.of_nat (length (filter (fun a => h a =? q) l))) (seqZ N)) = Z.of_nat (length l).
Proof.
  induction l as [|a l IH]; intros H.
  - cbn [filter length]. clear. induction (seqZ N); [reflexivity|]. cbn [map]. cbn [sumZ fold_right]. fold (sumZ (map (fun _ : Z => Z.of_nat 0) l)). lia.
  - rewrite (sumZ_map_ext _ (fun q => (if q =? h a then 1 else 0) + Z.of_nat (length (filter (fun a => h a =? q) l)))).
    + rewrite (sumZ_add (fun q => if q =? h a then 1 else 0)), IH by (intros; apply H; now right).
      rewrite (sumZ_delta (h a)); [cbn [length]; lia|apply NoDup_seqZ|]. apply in_seqZ. apply H. now left.
    + intros q _. cbn [filter]. rewrite (Z.eqb_sym q). destruct (h a =? q); cbn [length]; lia.
Qed.
Lemma sumZ_const c (L : list Z) : sumZ (map (fun _ => c) L) = c * Z.of_nat (length L).
Proof. induction L as [|x L IH]; [cbn; lia|]. cbn [map length]. cbn [sumZ fold_right]. fold (sumZ (map (fun _ => c) L)). lia. Qed.
Lemma sum_swap (f : Z -> Z -> Z) L M : sumZ (map (fun x => sumZ (map (f x) M)) L) = sumZ (map (fun y => sumZ (map (fun x => f x y) L)) M).
Proof.
  induction L as [|x L IH].
  - cbn [map]. change (sumZ []) with 0. rewrite (sumZ_const 0). lia.
  - cbn [map]. change (sumZ (?a :: ?b)) with (a + sumZ b). rewrite IH. 
    rewrite <- (sumZ_add (f x)). apply sumZ_map_ext. intros y _. reflexivity.
Qed.

(** how many of the n elements of rank r go to rank q *)
Definition going (n : Z) (index : Z -> Z -> Z * Z) (r q : Z) : Z :=
  Z.of_nat (length (filter (fun i => fst (index r i) =? q) (seqZ n))).

Section Remap.
Context (N n : Z) (HN : 0 < N) (Hn : 0 <= n) (index : Z -> Z -> Z * Z).
Hypothesis Hrng : forall r i, 0 <= r < N -> 0 <= i < n -> 0 <= fst (index r i) < N /\ 0 <= snd (index r i) < n.
Hypothesis Hinj : forall r i r' i', 0 <= r < N -> 0 <= i < n -> 0 <= r' < N -> 0 <= i' < n -> index r i = index r' i' -> r = r' /\ i = i'.
Hypothesis Hfit : N * n <= int_max + 1.

Let sl r := map (fun i => let '(q, d) := index r i in (i, d * N + q)) (seqZ n).
Lemma remap_list_ok r : 0 <= r < N -> remap_list N n (index r) = Some (sl r).
Proof.
  intros Hr. unfold remap_list. replace (forallb _ _) with true; [reflexivity|]. symmetry. apply forallb_forall.
  intros i Hi. apply in_seqZ in Hi. pose proof (Hrng r i Hr Hi) as H. destruct (index r i) as [q d]. cbn [fst snd] in H. lia.
Qed.
Lemma sl_in r p : In p (sl r) <-> exists i, 0 <= i < n /\ p = (i, snd (index r i) * N + fst (index r i)).
Proof.
  unfold sl. rewrite in_map_iff. split.
  - intros (i & E & Hi). apply in_seqZ in Hi. exists i. split; [assumption|]. destruct (index r i). now rewrite <- E.
  - intros (i & Hi & ->). exists i. split; [|now apply in_seqZ]. now destruct (index r i).
Qed.
Lemma code_mod r i : 0 <= r < N -> 0 <= i < n -> (snd (index r i) * N + fst (index r i)) mod N = fst (index r i) /\
  (snd (index r i) * N + fst (index r i)) / N = snd (index r i).
Proof.
  intros Hr Hi. destruct (Hrng r i Hr Hi) as [H1 H2]. split.
  - rewrite Z.add_comm, Z.mod_add, Z.mod_small by lia. reflexivity.
  - rewrite Z.div_add_l, Z.div_small by lia. lia.
Qed.
Lemma moved_going r q : 0 <= r < N -> moved N sl r q = going n index r q.
Proof.
  intros Hr. unfold moved, going, sl. f_equal.
  assert (H : forall L, (forall i, In i L -> 0 <= i < n) -> length (filter (fun p => snd p mod N =? q) (map (fun i => let '(q0, d) := index r i in (i, d * N + q0)) L)) = length (filter (fun i => fst (index r i) =? q) L)).
  { induction L as [|i L IH]; intros H; [reflexivity|]. cbn [map filter].
    replace (snd (let '(q0, d) := index r i in (i, d * N + q0)) mod N) with (fst (index r i)).
    2:{ destruct (code_mod r i Hr (H i (or_introl eq_refl))) as [E _]. destruct (index r i). cbn [fst snd] in *. now rewrite E. }
    rewrite <- (IH (fun j Hj => H j (or_intror Hj))) || (pose proof (IH (fun j Hj => H j (or_intror Hj))) as IH').
    all: destruct (fst (index r i) =? q); cbn [length]; lia. }
  apply H. intros i Hi. now apply in_seqZ.
Qed.
Lemma received_le q : 0 <= q < N -> received N sl q <= n.
Proof.
  intros Hq. unfold received. rewrite (sumZ_map_ext _ (fun r => going n index r q)) by (intros r Hr; apply in_seqZ in Hr; now apply moved_going).
  unfold going. rewrite <- (filter_prod_len (fun p => fst (index (fst p) (snd p)) =? q)).
  set (L := filter _ _).
  assert (HL : forall p, In p L -> 0 <= fst p < N /\ 0 <= snd p < n /\ fst (index (fst p) (snd p)) = q).
  { intros [a b] Hp. apply filter_In in Hp as [Hp E]. apply in_prod_iff in Hp as [H1 H2]. apply in_seqZ in H1, H2. cbn [fst snd] in *. lia. }
  assert (Hd : NoDup (map (fun p => snd (index (fst p) (snd p))) L)).
  { apply (NoDup_map_inj _ (fun p => p)).
    - rewrite map_id. apply NoDup_filter, NoDup_list_prod; apply NoDup_seqZ.
    - intros [a b] [a' b'] H1 H2 E. apply HL in H1 as (? & ? & E1), H2 as (? & ? & E2). cbn [fst snd] in *.
      destruct (Hinj a b a' b') as [-> ->]; try assumption; [|reflexivity]. rewrite (surjective_pairing (index a b)), (surjective_pairing (index a' b')). congruence. }
  assert (Hle : (length (map (fun p => snd (index (fst p) (snd p))) L) <= length (seqZ n))%nat).
  { apply NoDup_incl_length; [exact Hd|]. intros d Hin. apply in_map_iff in Hin as ([a b] & <- & Hp). apply HL in Hp as (? & ? & _). cbn [fst snd] in *.
    apply in_seqZ. now apply Hrng. }
  rewrite map_length, seqZ_length in Hle. lia.
Qed.
Lemma received_eq q : 0 <= q < N -> received N sl q = n.
Proof.
  intros Hq. apply (sum_le_eq (received N sl) n (seqZ N)); [intros x Hx; apply in_seqZ in Hx; now apply received_le| |now apply in_seqZ].
  unfold received. rewrite <- sum_swap.
  rewrite (sumZ_map_ext _ (fun _ => n)); [apply sumZ_const|].
  intros r Hr. apply in_seqZ in Hr. rewrite (sumZ_map_ext _ (going n index r)) by (intros; now apply moved_going).
  unfold going. rewrite sum_count; [rewrite seqZ_length; lia|]. intros i Hi. apply in_seqZ in Hi. now apply Hrng.
Qed.
Theorem remap_main {A} (nel : Z -> Z) (sched : Z -> list Z) (input : Z -> table A) (out : table A) :
  (forall r, 0 <= r < N -> nel r = n) ->
  (forall r, 0 <= r < N -> local_part_right N (going n index) r) ->
  (forall m i, In i (sched m) <-> 0 <= i < m) ->
  forall r, 0 <= r < N ->
  exists out', remap N nel index sched input out r = Some out' /\
    (forall q i, 0 <= q < N -> 0 <= i < n -> fst (index q i) = r -> out' (snd (index q i)) = input q i) /\
    (forall d, (forall q i, 0 <= q < N -> 0 <= i < n -> index q i <> (r, d)) -> out' d = out d).
Proof.
  intros Hnel Hloc Hs r Hr. unfold remap, vector_remap. replace (forallb _ _) with true.
  2:{ symmetry. apply forallb_forall. intros q Hq. apply in_seqZ in Hq. now rewrite Hnel, remap_list_ok. }
  set (sl' := fun q => match remap_list N (nel q) (index q) with Some l => l | None => [] end).
  assert (E : forall q, 0 <= q < N -> sl' q = sl q) by (intros q Hq; unfold sl'; now rewrite Hnel, remap_list_ok).
  assert (Em : forall q p, 0 <= q < N -> moved N sl' q p = going n index q p).
  { intros q p Hq. unfold moved. rewrite E by assumption. now apply moved_going. }
  change (fun r0 : Z => setup_scatter N sl' r0) with (setup_scatter N sl').
  destruct (@scatter_main N HN sl') with (A := A) (sched := sched) (input := input) (out := out) (r := r) as (out' & Eo & H1 & H2); try assumption.
  - intros q p Hq Hp. rewrite E in Hp by assumption. apply sl_in in Hp as (i & Hi & ->). cbn [snd]. destruct (Hrng q i Hq Hi). nia.
  - intros q Hq. rewrite E by assumption. unfold sl. rewrite map_map. apply (NoDup_map_inj _ (fun i => i)); [rewrite map_id; apply NoDup_seqZ|].
    intros a b Ha Hb Eab. apply in_seqZ in Ha, Hb. destruct (code_mod q a Hq Ha) as [A1 A2]. destruct (code_mod q b Hq Hb) as [B1 B2].
    destruct (Hinj q a q b); try assumption. destruct (index q a), (index q b). cbn [fst snd] in *. congruence.
  - intros a b p p' Ha Hb Hp Hp' Ec. rewrite E in Hp, Hp' by assumption. apply sl_in in Hp as (i & Hi & ->). apply sl_in in Hp' as (j & Hj & ->). cbn [snd] in Ec.
    destruct (code_mod a i Ha Hi) as [A1 A2]. destruct (code_mod b j Hb Hj) as [B1 B2]. rewrite Ec in A1, A2.
    destruct (Hinj a i b j); try assumption. rewrite (surjective_pairing (index a i)), (surjective_pairing (index b j)). congruence.
  - intros q Hq. replace (received N sl' q) with (received N sl q).
    + rewrite received_eq, E by assumption. unfold sl. rewrite map_length, seqZ_length. lia.
    + unfold received. apply sumZ_map_ext. intros p Hp. apply in_seqZ in Hp. unfold moved. now rewrite E.
  - intros q Hq. pose proof (Hloc q Hq) as Hl. unfold local_part_right in *. rewrite Em by assumption. intros H0. rewrite <- Hl by assumption. f_equal.
    + f_equal. apply map_ext_in. intros p _. now apply Em.
    + f_equal. apply filter_ext_in. intros p Hp. apply in_seqZ in Hp. now rewrite Em by lia.
  - exists out'. split; [exact Eo|]. split.
    + intros q i Hq Hi Hf. destruct (code_mod q i Hq Hi) as [E1 E2]. rewrite <- E2. apply (H1 q i _ Hq).
      * rewrite E by assumption. apply sl_in. eauto.
      * congruence.
    + intros d Hd. apply H2. intros q s c Hq Hin Hm Hdiv. rewrite E in Hin by assumption. apply sl_in in Hin as (i & Hi & Ei). injection Ei as -> ->.
      destruct (code_mod q i Hq Hi) as [E1 E2]. apply (Hd q i Hq Hi). rewrite (surjective_pairing (index q i)). congruence.
Qed.
End Remap.

(** symmetric numbers of elements make the local copy right *)
Lemma local_right_sym N (m : Z -> Z -> Z) r : 0 <= r < N -> (forall q, 0 <= q < N -> m r q = m q r) -> local_part_right N m r.
Proof.
  intros Hr Hs H0. rewrite <- map_ranks.
  assert (E : ranks_of N (m r) = ranks_of N (fun q => m q r)) by (apply ranks_of_ext; assumption).
  pose proof (pos_ranks N (fun q => m q r) r Hr H0) as Hp. apply pos_of_nth in Hp. rewrite <- E in Hp.
  fold (ranks_of r (fun q => m q r)). now rewrite nth_error_map, Hp.
Qed.

(** counting through the inverse *)
Lemma going_inv N n (f g : Z -> Z -> Z * Z) r q : 0 <= r < N -> 0 <= q < N ->
  (forall r i, 0 <= r < N -> 0 <= i < n -> let '(q, j) := f r i in 0 <= q < N /\ 0 <= j < n /\ g q j = (r, i)) ->
  (forall q j, 0 <= q < N -> 0 <= j < n -> let '(r, i) := g q j in 0 <= r < N /\ 0 <= i < n /\ f r i = (q, j)) ->
  going n f r q = going n g q r.
Proof.
  intros Hr Hq Hf Hg. unfold going. f_equal.
  assert (Hle : forall (f g : Z -> Z -> Z * Z) r q, 0 <= r < N -> 0 <= q < N ->
    (forall r i, 0 <= r < N -> 0 <= i < n -> let '(q, j) := f r i in 0 <= q < N /\ 0 <= j < n /\ g q j = (r, i)) ->
    (length (filter (fun i => (fst (f r i) =? q)%Z) (seqZ n)) <= length (filter (fun j => (fst (g q j) =? r)%Z) (seqZ n)))%nat).
  { clear. intros f g r q Hr Hq Hf.
    rewrite <- (map_length (fun i => snd (f r i))). apply NoDup_incl_length.
    - apply (NoDup_map_inj _ (fun i => i)); [rewrite map_id; apply NoDup_filter, NoDup_seqZ|].
      intros a b Ha Hb E. apply filter_In in Ha as [Ha Ea], Hb as [Hb Eb]. apply in_seqZ in Ha, Hb.
      pose proof (Hf r a Hr Ha) as Fa. pose proof (Hf r b Hr Hb) as Fb. destruct (f r a) as [qa ja], (f r b) as [qb jb]. cbn [fst snd] in *.
      assert (qa = qb) by lia. destruct Fa as (_ & _ & Fa), Fb as (_ & _ & Fb). congruence.
    - intros j Hj. apply in_map_iff in Hj as (i & <- & Hi). apply filter_In in Hi as [Hi Ei]. apply in_seqZ in Hi.
      pose proof (Hf r i Hr Hi) as Fi. destruct (f r i) as [qi ji]. cbn [fst snd] in *. assert (qi = q) by lia. subst qi.
      destruct Fi as (_ & Fj & Fi). apply filter_In. split; [now apply in_seqZ|]. rewrite Fi. cbn [fst]. lia. }
  apply Nat.le_antisymm; apply Hle; assumption.
Qed.
