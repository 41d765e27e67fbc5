(** The paths computed by the ranks are the ordered products of the links. *)
From Coq Require Import Permutation Sorted.
From Verif Require Import Base GeometryModel GeometrySpec GeometryProofs OwnerProofs HaloModel ArbModel ArbSpec ArbRec ArbComm ArbInd.

(** ** decoding of a movement *)
Lemma decode st su dg nl a v : 0 <= a -> v = b2z st + 8 * b2z su + 2 * b2z dg + 4 * b2z nl + 16 * a ->
  Z.shiftr v nposs_path_flags = a /\
  let tag := Z.rem v (Z.shiftl 1 nposs_path_flags) in
  (Z.land tag START_PATH_FLAG =? 1) = st /\ (Z.land tag DAG_LINK_FLAG =? 0) = negb dg /\ (Z.land tag NONLOC_LINK_FLAG =? 0) = negb nl /\
  (Z.land tag SUMM_TO_PREVIOUS_PATH_FLAG =? 0) = negb su.
Proof.
  intros Ha ->. unfold nposs_path_flags. rewrite Z.shiftr_div_pow2 by lia. change (2 ^ 4) with 16. change (Z.shiftl 1 4) with 16.
  set (f := b2z st + 8 * b2z su + 2 * b2z dg + 4 * b2z nl). assert (Hf : 0 <= f < 16) by (unfold f; destruct st, su, dg, nl; cbn [b2z]; lia).
  split; [rewrite (Z.mul_comm 16), Z.div_add, Z.div_small by lia; lia|].
  rewrite Z.rem_mod_nonneg by lia. rewrite (Z.mul_comm 16), Z.mod_add, Z.mod_small by lia. unfold f. clear.
  destruct st, su, dg, nl; cbn; repeat split; reflexivity.
Qed.

Section Comp.
Context {T : Type} (zero one : T) (mul muldag add : T -> T -> T) (U : list Z -> nat -> T) (G : list Z) (np : Z) (before : table T).
Context (lfm : table Z) (nl : table T) (fetch : Z -> option T).
Definition times (a : T) (m : mvt) : T := if m_dag m then muldag a (U (m_x m) (m_mu m)) else mul a (U (m_x m) (m_mu m)).
(** the movement is recorded, and its link is found *)
Definition recorded (imov : Z) (m : mvt) : Prop :=
  exists (n : bool) a, 0 <= a /\ lfm imov = Some (b2z (m_start m) + 8 * b2z (m_summ m) + 2 * b2z (m_dag m) + 4 * b2z n + 16 * a) /\
    (if n then nl a else fetch a) = Some (U (m_x m) (m_mu m)).
Notation cstep := (compute_step zero one mul muldag add np lfm nl fetch).
(** paths stored, sum of the pieces of the current path but the last one, the last one *)
Definition St (s : @run T) (vals : list T) (a w : T) : Prop :=
  ipath s = Z.of_nat (length vals) /\ (forall i x, nth_error vals i = Some x -> stored s (Z.of_nat i) = Some x) /\
  stored s (Z.of_nat (length vals)) = Some a /\ run_path s = w /\ (forall i, i < 0 \/ Z.of_nat (length vals) < i -> stored s i = before i).

Lemma step_go s vals a w imov m : recorded imov m -> m_start m = false -> St s vals a w ->
  exists s', cstep (Some s) imov = Some s' /\ St s' vals a (times w m).
Proof.
  intros (n & b & Hb & E & El) Hst (S1 & S2 & S3 & S4 & S5). destruct (decode (m_start m) (m_summ m) (m_dag m) n b _ Hb eq_refl) as (D1 & D2 & D3 & D4 & D5). cbv zeta in *.
  unfold compute_step. rewrite E, D1, D2, D3, D4, D5, Hst. rewrite !Bool.negb_involutive.
  eexists. split; [rewrite El; reflexivity|]. unfold St, times. cbn [ipath stored run_path]. rewrite S4. auto.
Qed.
Lemma step_new s vals a w imov m : recorded imov m -> m_start m = true -> m_summ m = false -> imov <> 0 -> St s vals a w -> Z.of_nat (length vals) + 1 < np ->
  exists s', cstep (Some s) imov = Some s' /\ St s' (vals ++ [add a w]) zero (times one m).
Proof.
  intros (n & b & Hb & E & El) Hst Hsu Hi (S1 & S2 & S3 & S4 & S5) Hnp. destruct (decode (m_start m) (m_summ m) (m_dag m) n b _ Hb eq_refl) as (D1 & D2 & D3 & D4 & D5). cbv zeta in *.
  unfold compute_step. rewrite E, D1, D2, D3, D4, D5, Hst, Hsu. rewrite !Bool.negb_involutive. destruct (Z.eqb_spec imov 0) as [|_]; [contradiction|]. cbn [negb].
  unfold summassign. rewrite S1, S3. destruct (Z.ltb_spec (Z.of_nat (length vals) + 1) np) as [_|]; [|lia]. rewrite El.
  eexists. split; [reflexivity|]. unfold St, times. cbn [ipath stored run_path]. rewrite app_length. cbn [length]. rewrite S4.
  split; [lia|]. split; [|split; [|split; [reflexivity|]]].
  - intros i x Hx. assert (i < length (vals ++ [add a w]))%nat by (apply nth_error_Some; congruence). rewrite app_length in H. cbn [length] in H.
    rewrite tset_neq by lia. destruct (Nat.eq_dec i (length vals)) as [->|Hne].
    + rewrite nth_error_app2, Nat.sub_diag in Hx by lia. cbn in Hx. rewrite tset_eq. congruence.
    + rewrite nth_error_app1 in Hx by lia. rewrite tset_neq by lia. auto.
  - replace (Z.of_nat (length vals + 1)) with (Z.of_nat (length vals) + 1) by lia. apply tset_eq.
  - intros i Hi'. rewrite tset_neq by lia. rewrite tset_neq by lia. apply S5. lia.
Qed.
Lemma step_sum s vals a w imov m : recorded imov m -> m_start m = true -> m_summ m = true -> imov <> 0 -> St s vals a w ->
  exists s', cstep (Some s) imov = Some s' /\ St s' vals (add a w) (times one m).
Proof.
  intros (n & b & Hb & E & El) Hst Hsu Hi (S1 & S2 & S3 & S4 & S5). destruct (decode (m_start m) (m_summ m) (m_dag m) n b _ Hb eq_refl) as (D1 & D2 & D3 & D4 & D5). cbv zeta in *.
  unfold compute_step. rewrite E, D1, D2, D3, D4, D5, Hst, Hsu. rewrite !Bool.negb_involutive. destruct (Z.eqb_spec imov 0) as [|_]; [contradiction|]. cbn [negb].
  unfold summassign. rewrite S1, S3. rewrite El.
  eexists. split; [reflexivity|]. unfold St, times. cbn [ipath stored run_path]. rewrite S4.
  split; [reflexivity|]. split; [|split; [|split; [reflexivity|]]].
  - intros i x Hx. assert (i < length vals)%nat by (apply nth_error_Some; congruence). rewrite tset_neq by lia. auto.
  - apply tset_eq.
  - intros i Hi'. rewrite tset_neq by lia. apply S5. lia.
Qed.
Lemma step_first w0 m : recorded 0 m -> m_start m = true -> 0 < np ->
  exists s', cstep (Some (mkRun 0 w0 before)) 0 = Some s' /\ St s' [] zero (times one m).
Proof.
  intros (n & b & Hb & E & El) Hst Hnp. destruct (decode (m_start m) (m_summ m) (m_dag m) n b _ Hb eq_refl) as (D1 & D2 & D3 & D4 & D5). cbv zeta in *.
  unfold compute_step. rewrite E, D1, D2, D3, D4, D5, Hst. rewrite !Bool.negb_involutive. rewrite Z.eqb_refl. cbn [negb ipath stored].
  destruct (Z.ltb_spec 0 np) as [_|]; [|lia]. rewrite El. eexists. split; [reflexivity|]. unfold St, times. cbn [ipath stored run_path length].
  split; [reflexivity|]. split; [intros [|i] x Hx; discriminate Hx|]. split; [apply tset_eq|]. split; [reflexivity|].
  intros i Hi. apply tset_neq. lia.
Qed.

(** all the movements of L are recorded, the first one at imov *)
Definition recs (imov : Z) (L : list mvt) : Prop := forall i m, nth_error L i = Some m -> recorded (imov + Z.of_nat i) m.
Lemma recs_cons imov m L : recs imov (m :: L) -> recorded imov m /\ recs (imov + 1) L.
Proof.
  intros H. split; [specialize (H 0%nat m eq_refl); now rewrite Z.add_0_r in H|]. intros i m' Hi.
  specialize (H (S i) m' Hi). replace (imov + 1 + Z.of_nat i) with (imov + Z.of_nat (S i)) by lia. exact H.
Qed.
Lemma recs_app imov L M : recs imov (L ++ M) -> recs imov L /\ recs (imov + Z.of_nat (length L)) M.
Proof.
  revert imov. induction L as [|m L IH]; intros imov H; cbn [app length] in *.
  - rewrite Z.add_0_r. split; [intros [|i] m Hm; discriminate Hm|assumption].
  - apply recs_cons in H as [H1 H2]. destruct (IH _ H2) as [H3 H4]. split.
    + intros [|i] m' Hm'; [injection Hm' as <-; now rewrite Z.add_0_r|]. specialize (H3 i m' Hm'). replace (imov + Z.of_nat (S i)) with (imov + 1 + Z.of_nat i) by lia. exact H3.
    + replace (imov + Z.of_nat (S (length L))) with (imov + 1 + Z.of_nat (length L)) by lia. exact H4.
Qed.
Notation run_from imov L s := (fold_left cstep (zfrom imov (length L)) (Some s)).
Context (g : grid) (HG : glbSize g = G).

Lemma go_ok l : forall x imov s vals a w, recs imov (mvs g false false x l) -> St s vals a w ->
  exists s', run_from imov (mvs g false false x l) s = Some s' /\ St s' vals a (walk mul muldag G U x l w).
Proof.
  induction l as [|[mu b] l IH]; intros x imov s vals a w Hr Hs; cbn [mvs length zfrom fold_left].
  { exists s. auto. }
  apply recs_cons in Hr as [H1 H2]. destruct (step_go s vals a w imov _ H1 eq_refl Hs) as (s1 & E1 & S1). rewrite E1.
  destruct (IH _ _ _ _ _ _ H2 S1) as (s2 & E2 & S2). exists s2. split; [exact E2|].
  unfold times, landed in S2. cbn [m_dag m_x m_mu fst snd] in S2. cbn [walk]. rewrite <- HG. destruct b; cbn [negb] in S2; rewrite HG in *; exact S2.
Qed.
Context (site : Z -> list Z).
Notation pv p := (walk mul muldag G U (site (from p)) (steps p) one).
(** the movements of a piece after the first one *)
Lemma piece_split first p : steps p <> [] -> exists m l, steps p = m :: l /\ piece_mvs g site first p =
  mkMvt true (negb first) (negb (snd m)) (if snd m then site (from p) else landed g (site (from p)) m) (fst m) :: mvs g false false (landed g (site (from p)) m) l /\
  walk mul muldag G U (landed g (site (from p)) m) l (times one (mkMvt true (negb first) (negb (snd m)) (if snd m then site (from p) else landed g (site (from p)) m) (fst m))) = pv p.
Proof.
  intros H. unfold piece_mvs. destruct (steps p) as [|[mu b] l] eqn:E; [congruence|]. exists (mu, b), l. split; [reflexivity|]. split; [reflexivity|].
  cbn [walk]. unfold times, landed. cbn [m_dag m_x m_mu fst snd]. rewrite HG. destruct b; reflexivity.
Qed.
Lemma new_piece p imov s vals a w : steps p <> [] -> recs imov (piece_mvs g site true p) -> imov <> 0 -> St s vals a w -> Z.of_nat (length vals) + 1 < np ->
  exists s', run_from imov (piece_mvs g site true p) s = Some s' /\ St s' (vals ++ [add a w]) zero (pv p).
Proof.
  intros Hne Hr Hi Hs Hnp. destruct (piece_split true p Hne) as (m & l & E & Ep & Ew). rewrite Ep in *. cbn [length zfrom fold_left].
  apply recs_cons in Hr as [H1 H2]. destruct (step_new s vals a w imov _ H1 eq_refl eq_refl Hi Hs Hnp) as (s1 & E1 & S1). rewrite E1.
  destruct (go_ok _ _ _ _ _ _ _ H2 S1) as (s2 & E2 & S2). rewrite Ew in S2. eauto.
Qed.
Lemma sum_piece p imov s vals a w : steps p <> [] -> recs imov (piece_mvs g site false p) -> imov <> 0 -> St s vals a w ->
  exists s', run_from imov (piece_mvs g site false p) s = Some s' /\ St s' vals (add a w) (pv p).
Proof.
  intros Hne Hr Hi Hs. destruct (piece_split false p Hne) as (m & l & E & Ep & Ew). rewrite Ep in *. cbn [length zfrom fold_left].
  apply recs_cons in Hr as [H1 H2]. destruct (step_sum s vals a w imov _ H1 eq_refl eq_refl Hi Hs) as (s1 & E1 & S1). rewrite E1.
  destruct (go_ok _ _ _ _ _ _ _ H2 S1) as (s2 & E2 & S2). rewrite Ew in S2. eauto.
Qed.
Lemma first_piece p w0 : steps p <> [] -> recs 0 (piece_mvs g site true p) -> 0 < np ->
  exists s', run_from 0 (piece_mvs g site true p) (mkRun 0 w0 before) = Some s' /\ St s' [] zero (pv p).
Proof.
  intros Hne Hr Hnp. destruct (piece_split true p Hne) as (m & l & E & Ep & Ew). rewrite Ep in *. cbn [length zfrom fold_left].
  apply recs_cons in Hr as [H1 H2]. destruct (step_first w0 _ H1 eq_refl Hnp) as (s1 & E1 & S1). change (0 + 1) with 1 in *. rewrite E1.
  destruct (go_ok _ _ _ _ _ _ _ H2 S1) as (s2 & E2 & S2). rewrite Ew in S2. eauto.
Qed.
Lemma fold_app_run imov (L M : list mvt) s : run_from imov (L ++ M) s = fold_left cstep (zfrom (imov + Z.of_nat (length L)) (length M)) (run_from imov L s).
Proof. now rewrite app_length, zfrom_app, fold_left_app. Qed.
Lemma sum_pieces l : forall imov s vals a w, Forall (fun p => steps p <> []) l -> recs imov (flat_map (piece_mvs g site false) l) -> 0 < imov -> St s vals a w ->
  exists s' a' w', run_from imov (flat_map (piece_mvs g site false) l) s = Some s' /\ St s' vals a' w' /\
    add a' w' = fold_left (fun v p => add v (pv p)) l (add a w).
Proof.
  induction l as [|p l IH]; intros imov s vals a w Hne Hr Hi Hs; cbn [flat_map fold_left].
  { exists s, a, w. auto. }
  apply Forall_cons_iff in Hne as [Hp Hne]. cbn [flat_map] in Hr. apply recs_app in Hr as [H1 H2].
  destruct (sum_piece p imov s vals a w Hp H1 ltac:(lia) Hs) as (s1 & E1 & S1). rewrite fold_app_run, E1.
  destruct (IH _ _ _ _ _ Hne H2 ltac:(lia) S1) as (s2 & a2 & w2 & E2 & S2 & A2). exists s2, a2, w2. auto.
Qed.
Definition good (p : list piece) : Prop := p <> [] /\ Forall (fun q => steps q <> []) p.
Lemma mvs_pos first p : steps p <> [] -> (0 < length (piece_mvs g site first p))%nat.
Proof. unfold piece_mvs. rewrite mvs_length. destruct (steps p); [congruence|cbn; lia]. Qed.
Lemma new_path p imov s vals a w : good p -> recs imov (path_mvs g site p) -> 0 < imov -> St s vals a w -> Z.of_nat (length vals) + 1 < np ->
  exists s' a' w', run_from imov (path_mvs g site p) s = Some s' /\ St s' (vals ++ [add a w]) a' w' /\ add a' w' = path_value zero one mul muldag add G U site p.
Proof.
  intros [Hne Hp] Hr Hi Hs Hnp. destruct p as [|q l]; [congruence|]. apply Forall_cons_iff in Hp as [Hq Hp]. cbn [path_mvs] in *.
  apply recs_app in Hr as [H1 H2]. destruct (new_piece q imov s vals a w Hq H1 ltac:(lia) Hs Hnp) as (s1 & E1 & S1). rewrite fold_app_run, E1.
  destruct (sum_pieces l _ _ _ _ _ Hp H2 ltac:(lia) S1) as (s2 & a2 & w2 & E2 & S2 & A2). exists s2, a2, w2. auto.
Qed.
Lemma path_pos p : good p -> (0 < length (path_mvs g site p))%nat.
Proof. intros [Hne Hp]. destruct p as [|q l]; [congruence|]. apply Forall_cons_iff in Hp as [Hq Hp]. cbn [path_mvs]. rewrite app_length. pose proof (mvs_pos true q Hq). lia. Qed.
Notation val p := (path_value zero one mul muldag add G U site p).
Lemma more_paths ps : forall imov s vals a w, Forall good ps -> recs imov (flat_map (path_mvs g site) ps) -> 0 < imov -> St s vals a w ->
  Z.of_nat (length vals) + 1 + Z.of_nat (length ps) <= np ->
  exists s' vals' a' w', run_from imov (flat_map (path_mvs g site) ps) s = Some s' /\ St s' vals' a' w' /\
    vals' ++ [add a' w'] = vals ++ add a w :: map (fun p => val p) ps.
Proof.
  induction ps as [|p ps IH]; intros imov s vals a w Hg Hr Hi Hs Hnp; cbn [flat_map fold_left map].
  { exists s, vals, a, w. auto. }
  apply Forall_cons_iff in Hg as [Hp Hg]. cbn [flat_map length] in *. apply recs_app in Hr as [H1 H2].
  destruct (new_path p imov s vals a w Hp H1 Hi Hs ltac:(lia)) as (s1 & a1 & w1 & E1 & S1 & A1). rewrite fold_app_run, E1.
  destruct (IH _ _ _ _ _ Hg H2 ltac:(lia) S1) as (s2 & v2 & a2 & w2 & E2 & S2 & A2); [rewrite app_length; cbn [length]; lia|].
  exists s2, v2, a2, w2. split; [exact E2|]. split; [exact S2|]. rewrite A2, A1, <- app_assoc. reflexivity.
Qed.
Lemma all_paths ps w0 : ps <> [] -> Forall good ps -> recs 0 (flat_map (path_mvs g site) ps) -> np = Z.of_nat (length ps) ->
  exists s' vals a w, run_from 0 (flat_map (path_mvs g site) ps) (mkRun 0 w0 before) = Some s' /\ St s' vals a w /\ vals ++ [add a w] = map (fun p => val p) ps.
Proof.
  intros Hne Hg Hr Hnp. destruct ps as [|p ps]; [congruence|]. apply Forall_cons_iff in Hg as [[Hp1 Hp2] Hg]. cbn [flat_map length] in *. apply recs_app in Hr as [H1 H2].
  assert (Hpos := path_pos p (conj Hp1 Hp2)).
  destruct p as [|q l]; [congruence|]. apply Forall_cons_iff in Hp2 as [Hq Hp2]. rewrite fold_app_run. cbn [path_mvs] in *. apply recs_app in H1 as [H1 H1'].
  destruct (first_piece q w0 Hq H1 ltac:(lia)) as (s1 & E1 & S1). rewrite fold_app_run, E1. pose proof (mvs_pos true q Hq).
  destruct (sum_pieces l _ _ _ _ _ Hp2 H1' ltac:(lia) S1) as (s2 & a2 & w2 & E2 & S2 & A2). rewrite E2.
  destruct (more_paths ps _ _ _ _ _ Hg H2 ltac:(lia) S2) as (s3 & v3 & a3 & w3 & E3 & S3 & A3); [cbn [length]; lia|].
  exists s3, v3, a3, w3. split; [exact E3|]. split; [exact S3|]. rewrite A3, A2. reflexivity.
Qed.
End Comp.
