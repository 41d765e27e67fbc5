From Coq Require Import Reals Lra.
From Verif Require Import Base GeometryModel GeometryProofs GatherModel.
Open Scope Z_scope.

Definition sumR (l : list R) : R := fold_right Rplus 0%R l.

Lemma fold_sum (v : gvec) id l a : fold_left (fun acc s => (acc + v s id)%R) l a = (a + sumR (map (fun s => v s id) l))%R.
Proof. revert a; induction l as [|s l IH]; intros a; cbn; [lra|]. rewrite IH. unfold sumR. lra. Qed.
Lemma average_buf_sum v l id : l <> [] -> average_buf v l id = (sumR (map (fun s => v s id) l) / INR (length l))%R.
Proof. destruct l as [|s l]; [congruence|]. intros _. unfold average_buf. rewrite fold_sum. reflexivity. Qed.

Lemma average_in v l dps s id : In s l -> 0 <= id < dps -> average_list v l dps s id = average_buf v l id.
Proof.
  intros H I. unfold average_list. replace (existsb (Z.eqb s) l) with true.
  - now replace (true && (0 <=? id) && (id <? dps)) with true by lia.
  - symmetry. apply existsb_exists. exists s. split; auto. apply Z.eqb_refl.
Qed.
Lemma average_out v l dps s id : ~ In s l -> average_list v l dps s id = v s id.
Proof.
  intros H. unfold average_list. replace (existsb (Z.eqb s) l) with false; auto.
  symmetry. apply not_true_is_false. intros E. apply existsb_exists in E. destruct E as (x & X & Y). apply Z.eqb_eq in Y. subst. auto.
Qed.
Lemma average_buf_ext v w l id : (forall s, In s l -> v s id = w s id) -> average_buf v l id = average_buf w l id.
Proof.
  intros H. destruct l as [|s0 l]; auto. rewrite !average_buf_sum by discriminate. f_equal. f_equal. now apply map_ext_in.
Qed.

Section Loop.
Variables (X : Type) (sites : X -> list Z) (dps : Z).
Let go := fold_left (fun v x => average_list v (sites x) dps).
Lemma loop_untouched reps : forall v s id, (forall r, In r reps -> ~ In s (sites r)) -> go reps v s id = v s id.
Proof.
  induction reps as [|r reps IH]; intros v s id H; cbn; auto. unfold go in IH. rewrite IH.
  - apply average_out. apply H. now left.
  - intros q Q. apply H. now right.
Qed.
Lemma loop_average reps : NoDup reps -> (forall r q s, In r reps -> In q reps -> In s (sites r) -> In s (sites q) -> r = q) ->
  forall v r s id, In r reps -> In s (sites r) -> 0 <= id < dps -> go reps v s id = average_buf v (sites r) id.
Proof.
  induction reps as [|r0 reps IH]; intros ND D v r s id Hr Hs Hid; [destruct Hr|].
  apply NoDup_cons_iff in ND. destruct ND as [N0 ND]. change (go (r0 :: reps) v) with (go reps (average_list v (sites r0) dps)).
  destruct Hr as [->|Hr].
  - rewrite loop_untouched; [now apply average_in|].
    intros q Q I. assert (r = q) by (eapply D; eauto; [now left|now right]). subst. auto.
  - rewrite (IH ND) with (r := r); auto.
    + apply average_buf_ext. intros t T. apply average_out. intros I.
      assert (r = r0) by (eapply D; eauto; [now right|now left]). subst. auto.
    + intros a b t A B. apply D; now right.
Qed.
End Loop.

(* coordinates *)
Definition lat (T L : Z) : list Z := [T; L; L; L].
Lemma in_box4 T L a b c d : in_box [a; b; c; d] (lat T L) <-> (0 <= a < T /\ 0 <= b < L /\ 0 <= c < L /\ 0 <= d < L).
Proof.
  unfold in_box, lat. split.
  - intros H. inversion_clear H as [|? ? ? ? A H1]. inversion_clear H1 as [|? ? ? ? B H2]. inversion_clear H2 as [|? ? ? ? C H3].
    inversion_clear H3 as [|? ? ? ? D H4]. auto.
  - intros (A & B & C & D). constructor; auto.
Qed.
Definition mir (n x : Z) : Z := Z.rem (n - x) n.
Lemma mir_range n x : 0 <= x < n -> 0 <= mir n x < n.
Proof. intros H. unfold mir. rewrite Z.rem_mod_nonneg by lia. apply Z.mod_pos_bound. lia. Qed.
Lemma mir_eq n x : 0 <= x < n -> mir n x = if x =? 0 then 0 else n - x.
Proof.
  intros H. unfold mir. destruct (Z.eqb_spec x 0) as [->|N].
  - rewrite Z.sub_0_r. apply Z.rem_same. lia.
  - apply Z.rem_small. lia.
Qed.
Lemma mir_mir n x : 0 <= x < n -> mir n (mir n x) = x.
Proof.
  intros H. rewrite (mir_eq n x) by auto. destruct (Z.eqb_spec x 0) as [->|N].
  - rewrite mir_eq by lia. reflexivity.
  - rewrite mir_eq by lia. replace (n - x =? 0) with false by lia. lia.
Qed.
(* the representative of a coordinate *)
Definition can (n x : Z) : Z := if x <=? n / 2 then x else n - x.
Lemma can_mir n x : Z.rem n 2 = 0 -> 0 <= x < n -> can n (mir n x) = can n x.
Proof.
  intros E H. rewrite mir_eq by auto. unfold can. rewrite Z.rem_mod_nonneg in E by lia.
  destruct (Z.eqb_spec x 0) as [->|N]; auto.
  destruct (Z.leb_spec (n - x) (n / 2)), (Z.leb_spec x (n / 2)); Z.div_mod_to_equations; lia.
Qed.
Lemma can_range n x : 0 <= x < n -> 0 <= can n x <= n / 2.
Proof. intros H. unfold can. destruct (Z.leb_spec x (n / 2)); Z.div_mod_to_equations; lia. Qed.
Lemma can_small n x : x <= n / 2 -> can n x = x.
Proof. intros H. unfold can. now replace (x <=? n / 2) with true by lia. Qed.
Lemma can_cases n x : 0 <= x < n -> x = can n x \/ x = mir n (can n x).
Proof.
  intros H. unfold can. destruct (Z.leb_spec x (n / 2)); auto. right. rewrite mir_eq by (Z.div_mod_to_equations; lia).
  replace (n - x =? 0) with false by lia. lia.
Qed.

Lemma mirror_sites_eq T L a b c d :
  mirror_sites (lat T L) [a; b; c; d] = map (fun y => lxOfCoord y (lat T L))
    [[a; b; c; d]; [mir T a; b; c; d]; [a; mir L b; c; d]; [mir T a; mir L b; c; d];
     [a; b; mir L c; d]; [mir T a; b; mir L c; d]; [a; mir L b; mir L c; d]; [mir T a; mir L b; mir L c; d]].
Proof. reflexivity. Qed.

Lemma in_mirror_loop T L x : In x (mirror_loop (lat T L)) <->
  exists a b c d, x = [a; b; c; d] /\ 0 <= a <= Z.quot T 2 /\ 0 <= b <= Z.quot L 2 /\ 0 <= c <= Z.quot L 2 /\ 0 <= d <= Z.quot L 2.
Proof.
  unfold mirror_loop, upto. cbn [lat nth]. rewrite in_flat_map. split.
  - intros (a & A & H). apply in_flat_map in H. destruct H as (b & B & H). apply in_flat_map in H. destruct H as (c & C & H).
    apply in_map_iff in H. destruct H as (d & <- & D). rewrite in_seqZ in A, B, C, D. exists a, b, c, d. split; auto. lia.
  - intros (a & b & c & d & -> & A & B & C & D). exists a. rewrite in_seqZ. split; [lia|]. apply in_flat_map. exists b. rewrite in_seqZ.
    split; [lia|]. apply in_flat_map. exists c. rewrite in_seqZ. split; [lia|]. apply in_map_iff. exists d. rewrite in_seqZ. split; auto. lia.
Qed.

Lemma NoDup_flat_map {A B} (f : A -> list B) l : NoDup l -> (forall a, In a l -> NoDup (f a)) ->
  (forall a b y, In a l -> In b l -> In y (f a) -> In y (f b) -> a = b) -> NoDup (flat_map f l).
Proof.
  induction l as [|a l IH]; intros ND F D; cbn; [constructor|]. apply NoDup_cons_iff in ND. destruct ND as [Na ND].
  assert (G : forall u w : list B, NoDup u -> NoDup w -> (forall y, In y u -> In y w -> False) -> NoDup (u ++ w)).
  { induction u as [|y u IHu]; intros w U W X; cbn; auto. apply NoDup_cons_iff in U. destruct U as [U1 U2]. constructor.
    - rewrite in_app_iff. intros [Y|Y]; [auto|]. apply (X y); auto. now left.
    - apply IHu; auto. intros z Z1 Z2. apply (X z); auto. now right. }
  apply G.
  - apply F. now left.
  - apply IH; auto; [intros; apply F; now right|]. intros b c y Hb Hc. apply D; now right.
  - intros y Y1 Y2. apply in_flat_map in Y2. destruct Y2 as (b & Hb & Y2). assert (a = b) by (eapply D; eauto; [now left|now right]).
    subst. auto.
Qed.

Lemma NoDup_mirror_loop T L : NoDup (mirror_loop (lat T L)).
Proof.
  unfold mirror_loop, upto. apply NoDup_flat_map; [apply NoDup_seqZ| |].
  - intros a A. apply NoDup_flat_map; [apply NoDup_seqZ| |].
    + intros b B. apply NoDup_flat_map; [apply NoDup_seqZ| |].
      * intros c C. apply Injective_map_NoDup; [|apply NoDup_seqZ]. intros u w E. congruence.
      * intros c e y _ _ Hc He. apply in_map_iff in Hc, He. destruct Hc as (? & <- & _), He as (? & E & _). congruence.
    + intros b e y _ _ Hb He. apply in_flat_map in Hb, He. destruct Hb as (? & _ & Hb), He as (? & _ & He).
      apply in_map_iff in Hb, He. destruct Hb as (? & <- & _), He as (? & E & _). congruence.
  - intros a e y _ _ Ha He. apply in_flat_map in Ha, He. destruct Ha as (? & _ & Ha), He as (? & _ & He).
    apply in_flat_map in Ha, He. destruct Ha as (? & _ & Ha), He as (? & _ & He).
    apply in_map_iff in Ha, He. destruct Ha as (? & <- & _), He as (? & E & _). congruence.
Qed.

(* a site of the orbit gives the representative back *)
Definition canon (T L : Z) (x : list Z) : list Z := [can T x.[0]; can L x.[1]; can L x.[2]; x.[3]].

Lemma orbit_site T L a b c d s : in_box [a; b; c; d] (lat T L) -> Z.rem T 2 = 0 -> Z.rem L 2 = 0 ->
  In s (mirror_sites (lat T L) [a; b; c; d]) -> exists y, in_box y (lat T L) /\ s = lxOfCoord y (lat T L) /\
    canon T L y = canon T L [a; b; c; d] /\ y.[3] = d /\ length y = 4%nat.
Proof.
  intros B ET EL H. apply in_box4 in B. destruct B as (B0 & B1 & B2 & B3).
  rewrite mirror_sites_eq in H. apply in_map_iff in H. destruct H as (y & <- & H). exists y.
  pose proof (mir_range T a B0). pose proof (mir_range L b B1). pose proof (mir_range L c B2).
  repeat (destruct H as [<-|H]; [split; [apply in_box4; auto|split; [reflexivity|split; [unfold canon; cbn [nth]; rewrite ?can_mir by auto; reflexivity|split; reflexivity]]]|]).
  destruct H.
Qed.

Lemma quot2 n : 0 <= n -> Z.quot n 2 = n / 2.
Proof. intros. now rewrite Z.quot_div_nonneg by lia. Qed.

(* the halves lie in the lattice when it is not a single... *)
Lemma half_lt n : Z.rem n 2 = 0 -> 0 < n -> n / 2 < n.
Proof. intros. Z.div_mod_to_equations. lia. Qed.

Lemma mirror_disjoint T L : 0 < T -> 0 < L -> Z.rem T 2 = 0 -> Z.rem L 2 = 0 -> forall r q s,
  In r (mirror_loop (lat T L)) -> In q (mirror_loop (lat T L)) ->
  In s (mirror_sites (lat T L) r) -> In s (mirror_sites (lat T L) q) -> r = q.
Proof.
  intros HT HL ET EL r q s Hr Hq S1 S2. apply in_mirror_loop in Hr, Hq.
  destruct Hr as (a & b & c & d & -> & A & B & C & D), Hq as (a' & b' & c' & d' & -> & A' & B' & C' & D').
  rewrite !quot2 in * by lia. pose proof (half_lt T ET HT). pose proof (half_lt L EL HL).
  apply orbit_site in S1; auto; [|apply in_box4; lia]. apply orbit_site in S2; auto; [|apply in_box4; lia].
  destruct S1 as (y & Y1 & Y2 & Y3 & Y4 & Y5), S2 as (z & Z1 & Z2 & Z3 & Z4 & Z5).
  assert (y = z) by (apply (lxOfCoord_inj (lat T L)); auto; congruence). subst z. rewrite Y3 in Z3. unfold canon in Z3. cbn [nth] in Z3.
  rewrite !can_small in Z3 by lia. injection Z3 as -> -> ->. congruence.
Qed.

(* average over the mirrors of any point with x3 up to L/2 *)
Definition mirror_average (T L : Z) (v : gvec) (a b c d id : Z) : R :=
  ((v (lxOfCoord [a; b; c; d] (lat T L)) id + v (lxOfCoord [mir T a; b; c; d] (lat T L)) id +
    v (lxOfCoord [a; mir L b; c; d] (lat T L)) id + v (lxOfCoord [mir T a; mir L b; c; d] (lat T L)) id +
    v (lxOfCoord [a; b; mir L c; d] (lat T L)) id + v (lxOfCoord [mir T a; b; mir L c; d] (lat T L)) id +
    v (lxOfCoord [a; mir L b; mir L c; d] (lat T L)) id + v (lxOfCoord [mir T a; mir L b; mir L c; d] (lat T L)) id) / 8)%R.

Lemma average_mirror T L v a b c d id : average_buf v (mirror_sites (lat T L) [a; b; c; d]) id = mirror_average T L v a b c d id.
Proof.
  rewrite mirror_sites_eq, average_buf_sum by discriminate. unfold mirror_average, sumR. cbn [map fold_right].
  replace (INR (length _)) with 8%R by (cbn; lra). f_equal. lra.
Qed.

Lemma mirror_average_can T L v a b c d id : 0 <= a < T -> 0 <= b < L -> 0 <= c < L ->
  mirror_average T L v (can T a) (can L b) (can L c) d id = mirror_average T L v a b c d id.
Proof.
  intros A B C.
  assert (X : forall n x, 0 <= x < n -> exists y, 0 <= y < n /\ y = can n x /\ (x = y \/ x = mir n y)).
  { intros n x H. exists (can n x). pose proof (can_range n x H). split; [|split; [auto|now apply can_cases]].
    split; [lia|]. apply Z.le_lt_trans with (n / 2); [lia|]. Z.div_mod_to_equations. lia. }
  destruct (X T a A) as (a0 & A0 & EA & CA), (X L b B) as (b0 & B0 & EB & CB), (X L c C) as (c0 & C0 & EC & CC).
  rewrite <- EA, <- EB, <- EC. clear EA EB EC.
  destruct CA as [-> | ->], CB as [-> | ->], CC as [-> | ->]; unfold mirror_average; rewrite ?mir_mir by auto; f_equal; lra.
Qed.

Lemma in_mirror_sites_can T L a b c d : 0 <= a < T -> 0 <= b < L -> 0 <= c < L ->
  In (lxOfCoord [a; b; c; d] (lat T L)) (mirror_sites (lat T L) [can T a; can L b; can L c; d]).
Proof.
  intros A B C. rewrite mirror_sites_eq. apply (in_map (fun y => lxOfCoord y (lat T L))).
  pose proof (can_cases T a A) as CA. pose proof (can_cases L b B) as CB. pose proof (can_cases L c C) as CC.
  set (a0 := can T a) in *. set (b0 := can L b) in *. set (c0 := can L c) in *. clearbody a0 b0 c0.
  destruct CA as [-> | ->], CB as [-> | ->], CC as [-> | ->]; cbn; auto 10.
Qed.

Lemma mirrorize_ok T L v dps a b c d id : 0 < T -> 0 < L -> Z.rem T 2 = 0 -> Z.rem L 2 = 0 ->
  0 <= a < T -> 0 <= b < L -> 0 <= c < L -> 0 <= d < L -> 0 <= id < dps ->
  exists v', gathered_vector_mirrorize (lat T L) v dps = Some v' /\
  v' (lxOfCoord [a; b; c; d] (lat T L)) id =
    if d <=? L / 2 then mirror_average T L v a b c d id else v (lxOfCoord [a; b; c; d] (lat T L)) id.
Proof.
  intros HT HL ET EL A B C D I. unfold gathered_vector_mirrorize. cbn [lat nth]. rewrite ET, EL. cbn [Z.eqb negb orb].
  eexists. split; [reflexivity|]. change [T; L; L; L] with (lat T L).
  pose proof (half_lt T ET HT). pose proof (half_lt L EL HL).
  destruct (Z.leb_spec d (L / 2)).
  - rewrite (loop_average _ (mirror_sites (lat T L)) dps) with (r := [can T a; can L b; can L c; d]); auto.
    + rewrite average_mirror. now apply mirror_average_can.
    + apply NoDup_mirror_loop.
    + now apply mirror_disjoint.
    + apply in_mirror_loop. exists (can T a), (can L b), (can L c), d. split; auto. rewrite !quot2 by lia.
      pose proof (can_range T a A). pose proof (can_range L b B). pose proof (can_range L c C). lia.
    + now apply in_mirror_sites_can.
  - apply (loop_untouched _ (mirror_sites (lat T L)) dps). intros r Hr S. apply in_mirror_loop in Hr.
    destruct Hr as (a' & b' & c' & d' & -> & A' & B' & C' & D'). rewrite !quot2 in * by lia.
    apply orbit_site in S; auto; [|apply in_box4; lia]. destruct S as (y & Y1 & Y2 & Y3 & Y4 & Y5).
    apply lxOfCoord_inj in Y2; auto; [|apply in_box4; lia]. subst y. cbn [nth] in Y4. lia.
Qed.

(* ---- permutations ---- *)
Lemma perm_sites_eq T L a b c d : perm_sites (lat T L) [a; b; c; d] = map (fun y => lxOfCoord y (lat T L))
  [[a; b; c; d]; [a; c; d; b]; [a; d; b; c]; [a; b; d; c]; [a; d; c; b]; [a; c; b; d]].
Proof. reflexivity. Qed.
Definition perm_average (T L : Z) (v : gvec) (a b c d id : Z) : R :=
  ((v (lxOfCoord [a; b; c; d] (lat T L)) id + v (lxOfCoord [a; c; d; b] (lat T L)) id +
    v (lxOfCoord [a; d; b; c] (lat T L)) id + v (lxOfCoord [a; b; d; c] (lat T L)) id +
    v (lxOfCoord [a; d; c; b] (lat T L)) id + v (lxOfCoord [a; c; b; d] (lat T L)) id) / 6)%R.
Lemma average_perm T L v a b c d id : average_buf v (perm_sites (lat T L) [a; b; c; d]) id = perm_average T L v a b c d id.
Proof.
  rewrite perm_sites_eq, average_buf_sum by discriminate. unfold perm_average, sumR. cbn [map fold_right].
  replace (INR (length _)) with 6%R by (cbn; lra). f_equal. lra.
Qed.
Lemma in_perm_loop T L x : In x (perm_loop (lat T L)) <->
  exists a b c d, x = [a; b; c; d] /\ 0 <= a <= Z.quot T 2 /\ 0 <= d <= c /\ c <= b /\ b <= Z.quot L 2.
Proof.
  unfold perm_loop, upto. cbn [lat nth]. rewrite in_flat_map. split.
  - intros (a & A & H). apply in_flat_map in H. destruct H as (b & B & H). apply in_flat_map in H. destruct H as (c & C & H).
    apply in_map_iff in H. destruct H as (d & <- & D). rewrite in_seqZ in A, B, C, D. exists a, b, c, d. split; auto. lia.
  - intros (a & b & c & d & -> & A & D & C & B). exists a. rewrite in_seqZ. split; [lia|]. apply in_flat_map. exists b. rewrite in_seqZ.
    split; [lia|]. apply in_flat_map. exists c. rewrite in_seqZ. split; [lia|]. apply in_map_iff. exists d. rewrite in_seqZ. split; auto. lia.
Qed.
Lemma NoDup_perm_loop T L : NoDup (perm_loop (lat T L)).
Proof.
  unfold perm_loop, upto. apply NoDup_flat_map; [apply NoDup_seqZ| |].
  - intros a A. apply NoDup_flat_map; [apply NoDup_seqZ| |].
    + intros b B. apply NoDup_flat_map; [apply NoDup_seqZ| |].
      * intros c C. apply Injective_map_NoDup; [|apply NoDup_seqZ]. intros u w E. congruence.
      * intros c e y _ _ Hc He. apply in_map_iff in Hc, He. destruct Hc as (? & <- & _), He as (? & E & _). congruence.
    + intros b e y _ _ Hb He. apply in_flat_map in Hb, He. destruct Hb as (? & _ & Hb), He as (? & _ & He).
      apply in_map_iff in Hb, He. destruct Hb as (? & <- & _), He as (? & E & _). congruence.
  - intros a e y _ _ Ha He. apply in_flat_map in Ha, He. destruct Ha as (? & _ & Ha), He as (? & _ & He).
    apply in_flat_map in Ha, He. destruct Ha as (? & _ & Ha), He as (? & _ & He).
    apply in_map_iff in Ha, He. destruct Ha as (? & <- & _), He as (? & E & _). congruence.
Qed.
(* the triple in decreasing order *)
Definition sort3 (b c d : Z) : Z * Z * Z :=
  (Z.max b (Z.max c d), Z.max (Z.min b c) (Z.min (Z.max b c) d), Z.min b (Z.min c d)).
Lemma perm_orbit T L a b c d s : in_box [a; b; c; d] (lat T L) -> In s (perm_sites (lat T L) [a; b; c; d]) ->
  exists b' c' d', in_box [a; b'; c'; d'] (lat T L) /\ s = lxOfCoord [a; b'; c'; d'] (lat T L) /\ sort3 b' c' d' = sort3 b c d.
Proof.
  intros B H. apply in_box4 in B. destruct B as (B0 & B1 & B2 & B3).
  rewrite perm_sites_eq in H. apply in_map_iff in H. destruct H as (y & <- & H).
  assert (X : forall u1 u2 u3 w1 w2 w3 : Z, u1 = w1 -> u2 = w2 -> u3 = w3 -> (u1, u2, u3) = (w1, w2, w3)) by (intros; congruence).
  repeat (destruct H as [<-|H]; [do 3 eexists; split; [|split; [reflexivity|]]; [apply in_box4; auto|
    unfold sort3; apply X; lia]|]). destruct H.
Qed.
Lemma perm_disjoint T L : 0 < T -> 0 < L -> Z.rem T 2 = 0 -> Z.rem L 2 = 0 -> forall r q s,
  In r (perm_loop (lat T L)) -> In q (perm_loop (lat T L)) ->
  In s (perm_sites (lat T L) r) -> In s (perm_sites (lat T L) q) -> r = q.
Proof.
  intros HT HL ET EL r q s Hr Hq S1 S2. apply in_perm_loop in Hr, Hq.
  destruct Hr as (a & b & c & d & -> & A & D & C & B), Hq as (a' & b' & c' & d' & -> & A' & D' & C' & B').
  rewrite !quot2 in * by lia. pose proof (half_lt T ET HT). pose proof (half_lt L EL HL).
  apply perm_orbit in S1; auto; [|apply in_box4; lia]. apply perm_orbit in S2; auto; [|apply in_box4; lia].
  destruct S1 as (u1 & u2 & u3 & U & Es & Eu), S2 as (w1 & w2 & w3 & W & Et & Ew).
  rewrite Es in Et. apply lxOfCoord_inj in Et; auto. injection Et as <- <- <- <-. rewrite Eu in Ew. unfold sort3 in Ew.
  injection Ew. intros. assert (b = b' /\ c = c' /\ d = d') as (-> & -> & ->) by lia. reflexivity.
Qed.
Lemma perm_average_sort T L v a b c d id b' c' d' : sort3 b c d = (b', c', d') ->
  perm_average T L v a b' c' d' id = perm_average T L v a b c d id /\
  In (lxOfCoord [a; b; c; d] (lat T L)) (perm_sites (lat T L) [a; b'; c'; d']).
Proof.
  intros E.
  assert (P : (b', c', d') = (b, c, d) \/ (b', c', d') = (b, d, c) \/ (b', c', d') = (c, b, d) \/
              (b', c', d') = (c, d, b) \/ (b', c', d') = (d, b, c) \/ (b', c', d') = (d, c, b)).
  { rewrite <- E. unfold sort3.
    assert (X : forall u1 u2 u3 w1 w2 w3 : Z, u1 = w1 -> u2 = w2 -> u3 = w3 -> (u1, u2, u3) = (w1, w2, w3)) by (intros; congruence).
    destruct (Z_le_gt_dec b c), (Z_le_gt_dec c d), (Z_le_gt_dec b d);
      first [left; apply X; lia | right; left; apply X; lia | right; right; left; apply X; lia |
             right; right; right; left; apply X; lia | right; right; right; right; left; apply X; lia |
             right; right; right; right; right; apply X; lia]. }
  clear E. rewrite perm_sites_eq.
  destruct P as [P|[P|[P|[P|[P|P]]]]]; injection P as -> -> ->; (split; [unfold perm_average; f_equal; lra|]);
    apply (in_map (fun y => lxOfCoord y (lat T L))); cbn; auto 10.
Qed.
Lemma cubic_ok T L v dps a b c d id : 0 < T -> 0 < L -> Z.rem T 2 = 0 -> Z.rem L 2 = 0 ->
  0 <= a < T -> 0 <= b < L -> 0 <= c < L -> 0 <= d < L -> 0 <= id < dps ->
  exists v', gathered_vector_cubic_symmetrize (lat T L) v dps = Some v' /\
  v' (lxOfCoord [a; b; c; d] (lat T L)) id =
    if (a <=? T / 2) && (b <=? L / 2) && (c <=? L / 2) && (d <=? L / 2)
    then perm_average T L v a b c d id else v (lxOfCoord [a; b; c; d] (lat T L)) id.
Proof.
  intros HT HL ET EL A B C D I. unfold gathered_vector_cubic_symmetrize. cbn [lat nth]. rewrite ET, EL. cbn [Z.eqb negb orb].
  eexists. split; [reflexivity|]. change [T; L; L; L] with (lat T L).
  pose proof (half_lt T ET HT). pose proof (half_lt L EL HL).
  destruct (sort3 b c d) as [[b' c'] d'] eqn:E.
  destruct ((a <=? T / 2) && (b <=? L / 2) && (c <=? L / 2) && (d <=? L / 2)) eqn:G.
  - destruct (perm_average_sort T L v a b c d id b' c' d' E) as [P1 P2].
    rewrite (loop_average _ (perm_sites (lat T L)) dps) with (r := [a; b'; c'; d']); auto.
    + rewrite average_perm. exact P1.
    + apply NoDup_perm_loop.
    + now apply perm_disjoint.
    + apply in_perm_loop. exists a, b', c', d'. split; auto. rewrite !quot2 by lia. unfold sort3 in E. injection E. intros. lia.
  - apply (loop_untouched _ (perm_sites (lat T L)) dps). intros r Hr S. apply in_perm_loop in Hr.
    destruct Hr as (a1 & b1 & c1 & d1 & -> & A1 & D1 & C1 & B1). rewrite !quot2 in * by lia.
    apply perm_orbit in S; auto; [|apply in_box4; lia]. destruct S as (u1 & u2 & u3 & U & Es & Eu).
    apply lxOfCoord_inj in Es; auto; [|apply in_box4; lia]. injection Es as -> -> -> ->. unfold sort3 in Eu. injection Eu. intros. lia.
Qed.
