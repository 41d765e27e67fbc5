From Verif Require Import Base GeometryModel GeometrySpec HaloModel HaloProofs Prop_Geometry Prop_Halo FieldModel FieldSpec.
Open Scope Z_scope.

Lemma app_snoc_inv {B} (h : list B) o h1 w h2 : h ++ [o] = h1 ++ w :: h2 ->
  (h2 = [] /\ h1 = h /\ w = o) \/ exists h2', h2 = h2' ++ [o] /\ h = h1 ++ w :: h2'.
Proof.
  intros E. destruct h2 as [|x h2'] using rev_ind.
  - left. apply app_inj_tail in E. destruct E. auto.
  - right. exists h2'. clear IHh2'. rewrite app_comm_cons, app_assoc in E. apply app_inj_tail in E. destruct E as [E <-]. auto.
Qed.

Lemma live_app {A} (h1 h2 : list (@op A)) : live (h1 ++ h2) = live h1 + live h2.
Proof. unfold live. induction h1 as [|o h1 IH]; cbn [app map fold_right]; [lia|]. rewrite IH. lia. Qed.

(** pending changes *)
Definition declaresb {A} (h : list (@op A)) (o : @op A) : bool :=
  match o with InvalidateHalo => true | DropRef true => live (h ++ [o]) =? 0 | _ => false end.
Lemma declaresb_ok {A} (h : list (@op A)) o : declaresb h o = true <-> declares h o.
Proof. destruct o as [ |[]| | | | | |]; cbn [declaresb declares]; rewrite ?Z.eqb_eq; split; intros; auto; try discriminate; tauto. Qed.
Definition clean {A} (h : list (@op A)) : Prop :=
  forall h1 w h2, h = h1 ++ w :: h2 -> changes w -> exists a d b, h2 = a ++ d :: b /\ declares (h1 ++ w :: a) d.

Lemma clean_nil {A} : clean (@nil (@op A)).
Proof. intros h1 w h2 E. destruct h1; discriminate. Qed.
Lemma clean_declare {A} (h : list (@op A)) o : declares h o -> clean (h ++ [o]).
Proof.
  intros D h1 w h2 E C. apply app_snoc_inv in E. destruct E as [(-> & -> & ->)|(h2' & -> & ->)].
  - destruct o; contradiction.
  - exists h2', o, []. auto.
Qed.
Lemma clean_snoc {A} (h : list (@op A)) o : clean h -> ~ changes o -> clean (h ++ [o]).
Proof.
  intros Hc No h1 w h2 E C. apply app_snoc_inv in E. destruct E as [(-> & -> & ->)|(h2' & -> & ->)]; [tauto|].
  destruct (Hc h1 w h2' eq_refl C) as (a & d & b & -> & D). exists a, d, (b ++ [o]). rewrite <- app_assoc. auto.
Qed.
Lemma not_clean_change {A} (h : list (@op A)) o : changes o -> ~ clean (h ++ [o]).
Proof. intros C H. destruct (H h o [] eq_refl C) as (a & d & b & E & _). destruct a; discriminate. Qed.
Lemma clean_back {A} (h : list (@op A)) o : clean (h ++ [o]) -> ~ declares h o -> clean h.
Proof.
  intros Hc Nd h1 w h2 E C. destruct (Hc h1 w (h2 ++ [o])) as (a & d & b & E2 & D); auto.
  { rewrite E, <- app_assoc. reflexivity. }
  apply app_snoc_inv in E2. destruct E2 as [(-> & -> & ->)|(b' & -> & ->)]; [|now exists a, d, b'].
  exfalso. apply Nd. now rewrite E.
Qed.
Lemma disciplined_snoc {A} (h : list (@op A)) o : disciplined (h ++ [o]) <-> disciplined h /\ (updates o -> clean h).
Proof.
  split.
  - intros D. split.
    + intros h1 w h2 u h3 E C U. apply (D h1 w h2 u (h3 ++ [o])); auto. rewrite E, <- app_assoc. cbn. now rewrite <- app_assoc.
    + intros U h1 w h2 E C. apply (D h1 w h2 o []); auto. rewrite E, <- app_assoc. reflexivity.
  - intros [D Cl] h1 w h2 u h3 E C U. rewrite app_comm_cons, app_assoc in E. apply app_snoc_inv in E.
    destruct E as [(-> & E & ->)|(h3' & -> & ->)].
    + apply (Cl U h1 w h2); auto.
    + apply (D h1 w h2 u h3'); auto. rewrite <- app_assoc. reflexivity.
Qed.

Section Obj.
Context {A : Type} (g : grid) (Hv : valid_grid g = true).

Lemma comm_halo sched (d : Z -> table A) : good_sched g sched -> exists d', comm g (updateHalo g sched) d = Some d' /\
  halo_fresh g d' /\ (forall r i, 0 <= r < nranks g -> ~ (locVol g <= i < locVol g + bordVol g) -> d' r i = d r i).
Proof.
  intros Hs. assert (H := C10_halo A g Hv sched d Hs). unfold comm.
  replace (forallb _ _) with true.
  2: { symmetry. apply forallb_forall. intros r Hr. apply in_seqZ in Hr. destruct (H r Hr) as (d' & E & _). now rewrite E. }
  eexists. split; [reflexivity|]. split.
  - intros r i Hr Hi. destruct (H r Hr) as (d' & E & _ & F). destruct (F i Hi) as (gc & r' & i' & G1 & G2 & G3 & G4 & G5).
    exists gc, r', i'. rewrite E. split; auto. split; auto. split; auto. split; auto. rewrite G5.
    destruct (H r' G3) as (d2 & E2 & F2 & _). rewrite E2. symmetry. apply F2. lia.
  - intros r i Hr Hi. destruct (H r Hr) as (d' & E & F & _). rewrite E. now apply F.
Qed.
Lemma comm_edges sched (d : Z -> table A) : good_sched g sched -> exists d', comm g (updateEdges g sched) d = Some d' /\
  edges_fresh g d' /\ (forall r i, 0 <= r < nranks g -> ~ (locVol g + bordVol g <= i < locVol g + bordVol g + edgeVol g) -> d' r i = d r i).
Proof.
  intros Hs. assert (H := C11_edges A g Hv sched d Hs). unfold comm. pose proof (HaloProofs.vols_nonneg g Hv) as VN.
  replace (forallb _ _) with true.
  2: { symmetry. apply forallb_forall. intros r Hr. apply in_seqZ in Hr. destruct (H r Hr) as (d' & E & _). now rewrite E. }
  eexists. split; [reflexivity|]. split.
  - intros r i Hr Hi. destruct (H r Hr) as (d' & E & _ & F). destruct (F i Hi) as (gc & r' & i' & G1 & G2 & G3 & G4 & G5).
    exists gc, r', i'. rewrite E. split; auto. split; auto. split; auto. split; auto. rewrite G5.
    destruct (H r' G3) as (d2 & E2 & F2 & _). rewrite E2. symmetry. apply F2. lia.
  - intros r i Hr Hi. destruct (H r Hr) as (d' & E & F & _). rewrite E. now apply F.
Qed.
Lemma halo_keep (d d' : Z -> table A) : halo_fresh g d ->
  (forall r i, 0 <= r < nranks g -> 0 <= i < locVol g + bordVol g -> d' r i = d r i) -> halo_fresh g d'.
Proof.
  intros H K r i Hr Hi. pose proof (HaloProofs.vols_nonneg g Hv) as VN.
  destruct (H r i Hr Hi) as (gc & r' & i' & G1 & G2 & G3 & G4 & G5). exists gc, r', i'.
  rewrite !K by lia. auto.
Qed.

Lemma run_app (s : field) (h1 h2 : list (@op A)) : run g s (h1 ++ h2) = match run g s h1 with Some s' => run g s' h2 | None => None end.
Proof.
  unfold run. rewrite fold_left_app. destruct (fold_left _ h1 (Some s)) eqn:E; auto.
  clear E. induction h2; cbn; auto.
Qed.
Lemma run_snoc (s : field) (h : list (@op A)) o : run g s (h ++ [o]) = match run g s h with Some s' => step g s' o | None => None end.
Proof. rewrite run_app. destruct (run g s h); reflexivity. Qed.

Lemma do_update_ok force sched (s : @field A) : good_sched g sched -> pres s <> WITHOUT_HALO ->
  (haloIsValid s = true -> halo_fresh g (content s)) ->
  exists s', do_updateHalo g force sched s = Some s' /\ halo_fresh g (content s') /\ haloIsValid s' = true /\
    nRef s' = nRef s /\ edgesAreValid s' = edgesAreValid s /\ pres s' = pres s.
Proof.
  intros Hs P F. unfold do_updateHalo. destruct (force || negb (haloIsValid s)) eqn:E.
  - destruct (comm_halo sched (content s) Hs) as (d & -> & Fd & _). destruct (pres s) eqn:Ep; [congruence| |];
      (eexists; split; [reflexivity|]; cbn; auto 10).
  - exists s. assert (haloIsValid s = true) by (destruct (haloIsValid s), force; auto; discriminate). auto 10.
Qed.
Lemma do_update_inv force sched (s s' : @field A) : good_sched g sched -> do_updateHalo g force sched s = Some s' ->
  (haloIsValid s = true -> halo_fresh g (content s)) ->
  halo_fresh g (content s') /\ haloIsValid s' = true /\ nRef s' = nRef s /\ edgesAreValid s' = edgesAreValid s /\ pres s' = pres s.
Proof.
  intros Hs E F. destruct (force || negb (haloIsValid s)) eqn:Q.
  - destruct (pres s) eqn:P.
    + unfold do_updateHalo in E. rewrite Q, P in E. discriminate.
    + destruct (do_update_ok force sched s Hs ltac:(congruence) F) as (s1 & E1 & X). rewrite E in E1. injection E1 as <-. rewrite <- P. exact X.
    + destruct (do_update_ok force sched s Hs ltac:(congruence) F) as (s1 & E1 & X). rewrite E in E1. injection E1 as <-. rewrite <- P. exact X.
  - unfold do_updateHalo in E. rewrite Q in E. injection E as <-.
    assert (haloIsValid s = true) by (destruct (haloIsValid s), force; auto; discriminate). auto 10.
Qed.
Lemma do_update_edgesflag force sched (s s' : @field A) : do_updateHalo g force sched s = Some s' ->
  edgesAreValid s' = edgesAreValid s /\ nRef s' = nRef s /\ pres s' = pres s.
Proof.
  unfold do_updateHalo. destruct (force || _); [|intros E; injection E as <-; auto].
  destruct (pres s); [discriminate| |]; destruct (comm _ _ _); cbn; intros E; try discriminate; injection E as <-; auto.
Qed.

(* edges are always communicated *)
Lemma flags_inv p garbage (h : list (@op A)) s : run g (new_field p garbage) h = Some s ->
  edgesAreValid s = false /\ nRef s = live h /\ pres s = p.
Proof.
  revert s. induction h as [|o h IH] using rev_ind; intros s E.
  - cbn in E. injection E as <-. auto.
  - rewrite run_snoc in E. destruct (run g (new_field p garbage) h) as [s0|] eqn:E0; [|discriminate].
    destruct (IH s0 eq_refl) as (I1 & I2 & I3). rewrite live_app.
    destruct o as [w|w|f| | |force sched|force sched|src]; cbn [step] in E.
    + injection E as <-. cbn. rewrite I2. auto.
    + change (live [DropRef w]) with (-1). destruct ((nRef s0 - 1 =? 0) && w); injection E as <-; cbn; repeat split; auto; lia.
    + injection E as <-. cbn. split; auto. split; auto. lia.
    + injection E as <-. cbn. split; auto. split; auto. lia.
    + injection E as <-. cbn. split; auto. split; auto. lia.
    + apply do_update_edgesflag in E. destruct E as (E1 & E2 & E3). cbn. split; [congruence|]. split; [lia|congruence].
    + destruct (do_updateHalo g force sched s0) as [s1|] eqn:E1; [|discriminate].
      apply do_update_edgesflag in E1. destruct E1 as (F1 & F2 & F3). change (live [UpdateEdges force sched]) with 0.
      destruct (force || _).
      * destruct (pres s1); try discriminate. destruct (comm _ _ _); [|discriminate]. injection E as <-. cbn. repeat split; try congruence. lia.
      * injection E as <-. repeat split; try congruence. lia.
    + injection E as <-. cbn. split; auto. split; auto. lia.
Qed.

Lemma main_inv p garbage (h : list (@op A)) s : good_scheds g h -> disciplined h -> run g (new_field p garbage) h = Some s ->
  haloIsValid s = true -> clean h -> halo_fresh g (content s).
Proof.
  revert s. induction h as [|o h IH] using rev_ind; intros s Hg D E V C.
  - cbn in E. injection E as <-. discriminate.
  - rewrite run_snoc in E. destruct (run g (new_field p garbage) h) as [s0|] eqn:E0; [|discriminate].
    apply disciplined_snoc in D. destruct D as [D U].
    assert (Hg' : good_scheds g h) by (intros x Hx; apply Hg; apply in_or_app; now left).
    assert (Ho := Hg o (in_or_app h [o] o (or_intror (or_introl eq_refl)))).
    specialize (IH s0 Hg' D eq_refl).
    destruct (flags_inv p garbage h s0 E0) as (I1 & I2 & I3).
    destruct o as [w|w|f| | |force sched|force sched|src]; cbn [step] in E.
    + injection E as <-. cbn in *. apply IH; auto. apply (clean_back h _ C). cbn. auto.
    + destruct ((nRef s0 - 1 =? 0) && w) eqn:Q; injection E as <-; [discriminate|]. cbn in *. apply IH; auto. apply (clean_back h _ C).
      cbn. destruct w; auto. rewrite live_app. change (live [DropRef true]) with (-1). lia.
    + exfalso. revert C. apply not_clean_change. exact I.
    + injection E as <-. discriminate.
    + injection E as <-. cbn in *. apply IH; auto. apply (clean_back h _ C). cbn. auto.
    + destruct (do_update_inv force sched s0 s Ho E) as (R & _); auto. intros V0. apply IH; auto. apply U. exact I.
    + destruct (do_updateHalo g force sched s0) as [s1|] eqn:E1; [|discriminate].
      destruct (do_update_inv force sched s0 s1 Ho E1) as (R & _); [intros V0; apply IH; auto; apply U; exact I|].
      destruct (force || _).
      * destruct (pres s1); try discriminate. destruct (comm_edges sched (content s1) Ho) as (d & Ed & _ & K). rewrite Ed in E. injection E as <-.
        apply (halo_keep (content s1)); auto. intros r i Hr Hi. apply K; auto. lia.
      * injection E as <-. exact R.
    + exfalso. revert C. apply not_clean_change. exact I.
Qed.

Lemma halo_main_fresh p garbage (h : list (@op A)) u s : good_scheds g (h ++ [u]) -> updates u -> disciplined (h ++ [u]) ->
  run g (new_field p garbage) (h ++ [u]) = Some s -> halo_fresh g (content s).
Proof.
  intros Hg Hu D E. pose proof E as E'. rewrite run_snoc in E'. destruct (run g (new_field p garbage) h) as [s0|] eqn:E0; [|discriminate].
  assert (C : clean h) by (apply disciplined_snoc in D; tauto).
  assert (Hg' : good_scheds g h) by (intros x Hx; apply Hg; apply in_or_app; now left).
  assert (Ho := Hg u (in_or_app h [u] u (or_intror (or_introl eq_refl)))).
  apply disciplined_snoc in D. destruct D as [D _].
  assert (F := fun V => main_inv p garbage h s0 Hg' D E0 V C).
  destruct u as [w|w|f| | |force sched|force sched|src]; try contradiction; cbn [step] in E'.
  - now destruct (do_update_inv force sched s0 s Ho E' F).
  - destruct (do_updateHalo g force sched s0) as [s1|] eqn:E1; [|discriminate].
    destruct (do_update_inv force sched s0 s1 Ho E1 F) as (R & _).
    destruct (force || _).
    + destruct (pres s1); try discriminate. destruct (comm_edges sched (content s1) Ho) as (d & Ed & _ & K). rewrite Ed in E'. injection E' as <-.
      apply (halo_keep (content s1)); auto. intros r i Hr Hi. apply K; auto. lia.
    + injection E' as <-. exact R.
Qed.

Lemma edges_main_fresh p garbage (h : list (@op A)) force sched s : good_sched g sched ->
  run g (new_field p garbage) (h ++ [UpdateEdges force sched]) = Some s -> edges_fresh g (content s).
Proof.
  intros Hs E. rewrite run_snoc in E. destruct (run g (new_field p garbage) h) as [s0|] eqn:E0; [|discriminate].
  destruct (flags_inv p garbage h s0 E0) as (I1 & I2 & I3). cbn [step] in E.
  destruct (do_updateHalo g force sched s0) as [s1|] eqn:E1; [|discriminate].
  apply do_update_edgesflag in E1. destruct E1 as (F1 & F2 & F3). rewrite F1, I1, orb_true_r in E.
  destruct (pres s1); try discriminate. destruct (comm_edges sched (content s1) Hs) as (d & Ed & Fd & _). rewrite Ed in E. injection E as <-. exact Fd.
Qed.

(* it never fails *)
Lemma step_total o (s : @field A) : pres s = WITH_HALO_EDGES -> match o with UpdateHalo _ c | UpdateEdges _ c => good_sched g c | _ => True end ->
  exists s', step g s o = Some s' /\ pres s' = WITH_HALO_EDGES.
Proof.
  intros P Hs.
  assert (U : forall force sched, good_sched g sched -> exists s', do_updateHalo g force sched s = Some s' /\ pres s' = WITH_HALO_EDGES).
  { intros force sched H. unfold do_updateHalo. destruct (force || _); [|eauto]. rewrite P.
    destruct (comm_halo sched (content s) H) as (d & -> & _). cbn. eexists. split; [reflexivity|]. reflexivity. }
  destruct o as [w|w|f| | |force sched|force sched|src]; cbn [step]; try (eexists; split; [reflexivity|cbn; auto]; fail).
  - destruct (_ && _); eexists; (split; [reflexivity|cbn; auto]).
  - now apply U.
  - destruct (U force sched Hs) as (s1 & -> & P1). destruct (force || _); [|eauto]. rewrite P1.
    destruct (comm_edges sched (content s1) Hs) as (d & -> & _). cbn. eexists. split; [reflexivity|]. reflexivity.
Qed.
Lemma run_total garbage (h : list (@op A)) : good_scheds g h -> exists s, run g (new_field WITH_HALO_EDGES garbage) h = Some s.
Proof.
  intros Hg. assert (K : exists s, run g (new_field WITH_HALO_EDGES garbage) h = Some s /\ pres s = WITH_HALO_EDGES); [|destruct K as (s & E & _); eauto].
  induction h as [|o h IH] using rev_ind; [now exists (new_field WITH_HALO_EDGES garbage)|].
  destruct IH as (s & E & P); [intros x Hx; apply Hg; apply in_or_app; now left|].
  rewrite run_snoc, E. apply step_total; auto. apply (Hg o). apply in_or_app. right. now left.
Qed.
End Obj.

(** loops *)
Lemma live_maps {A} caps : live (map (@GetRef A) caps) = Z.of_nat (length caps) /\ live (map (@DropRef A) caps) = - Z.of_nat (length caps).
Proof.
  induction caps as [|c caps [I1 I2]]; [split; reflexivity|]. split.
  - change (1 + live (map (@GetRef A) caps) = Z.of_nat (S (length caps))). lia.
  - change (-1 + live (map (@DropRef A) caps) = - Z.of_nat (S (length caps))). lia.
Qed.
Lemma live_copies {A} caps n : live (concat (repeat (map (@GetRef A) caps) n)) = Z.of_nat n * Z.of_nat (length caps) /\
  live (concat (repeat (map (@DropRef A) (rev caps)) n)) = - (Z.of_nat n * Z.of_nat (length caps)).
Proof.
  pose proof (@live_maps A caps) as [L1 _]. pose proof (@live_maps A (rev caps)) as [_ L2]. rewrite rev_length in L2.
  induction n as [|n [I1 I2]]; [split; reflexivity|]. cbn [repeat concat]. rewrite !live_app, I1, I2, L1, L2. lia.
Qed.
Lemma live_loop {A} caps copies (body : option (Z -> table A -> table A)) : live (par_loop caps copies body) = 0.
Proof.
  unfold par_loop. rewrite !live_app. destruct (@live_copies A caps copies) as [-> ->].
  destruct (@live_maps A caps) as [-> _]. destruct (@live_maps A (rev caps)) as [_ ->]. rewrite rev_length.
  destruct body; [change (live [Write t]) with 0|change (live (@nil (@op A))) with 0]; lia.
Qed.
Lemma no_update_disciplined {A} (h b : list (@op A)) : disciplined h -> (forall o, In o b -> ~ updates o) -> disciplined (h ++ b).
Proof.
  induction b as [|o b IH] using rev_ind; intros D N; [now rewrite app_nil_r|]. rewrite app_assoc. apply disciplined_snoc. split.
  - apply IH; auto. intros x Hx. apply N. apply in_or_app. now left.
  - intros U. exfalso. apply (N o); auto. apply in_or_app. right. now left.
Qed.
Lemma no_change_clean {A} (h b : list (@op A)) : clean h -> (forall o, In o b -> ~ changes o) -> clean (h ++ b).
Proof.
  induction b as [|o b IH] using rev_ind; intros D N; [now rewrite app_nil_r|]. rewrite app_assoc. apply clean_snoc.
  - apply IH; auto. intros x Hx. apply N. apply in_or_app. now left.
  - apply N. apply in_or_app. right. now left.
Qed.
Lemma in_loop {A} caps copies (body : option (Z -> table A -> table A)) o : In o (par_loop caps copies body) ->
  (exists w, o = GetRef w \/ o = DropRef w) \/ exists f, body = Some f /\ o = Write f.
Proof.
  assert (M : forall l, In o (map (@GetRef A) l) -> exists w, o = GetRef w \/ o = DropRef w).
  { intros l H. apply in_map_iff in H. destruct H as (w & <- & _). eauto. }
  assert (M2 : forall l, In o (map (@DropRef A) l) -> exists w, o = GetRef w \/ o = DropRef w).
  { intros l H. apply in_map_iff in H. destruct H as (w & <- & _). eauto. }
  unfold par_loop. rewrite !in_app_iff. intros [H|[H|[H|[H|H]]]]; eauto.
  - apply in_concat in H. destruct H as (l & H1 & H2). apply repeat_spec in H1. subst l. eauto.
  - destruct body as [f|]; [|destruct H]. destruct H as [<-|[]]. eauto.
  - apply in_concat in H. destruct H as (l & H1 & H2). apply repeat_spec in H1. subst l. eauto.
Qed.

(** a program made of loops and updates *)
Inductive item {A} := Loop (caps : list bool) (copies : nat) (body : option (Z -> table A -> table A)) | Update (o : @op A).
Definition expand {A} (i : @item A) : list (@op A) := match i with Loop c n b => par_loop c n b | Update o => [o] end.
(** the loops changing the field capture a writable reference first; between the loops only updates of halo and edges *)
Definition good_item {A} (i : @item A) : Prop :=
  match i with Loop c n (Some _) => hd false c = true | Loop c n None => True | Update o => updates o end.

Lemma loops_disciplined {A} (l : list (@item A)) : Forall good_item l ->
  disciplined (flat_map expand l) /\ clean (flat_map expand l) /\ live (flat_map expand l) = 0.
Proof.
  induction l as [|i l IH] using rev_ind; intros H.
  - split; [|split; [apply clean_nil|reflexivity]]. intros h1 w h2 u h3 E. destruct h1; discriminate.
  - apply Forall_app in H. destruct H as [H1 H2]. inversion_clear H2 as [|? ? Hi _]. destruct (IH H1) as (D & C & L).
    rewrite flat_map_app. cbn [flat_map]. rewrite app_nil_r. destruct i as [caps n body|o]; cbn [expand good_item] in *.
    + assert (Q : forall o, In o (par_loop caps n body) -> ~ updates o).
      { intros o Ho. apply in_loop in Ho. destruct Ho as [(w & [->| ->])|(f & _ & ->)]; cbn; tauto. }
      split; [now apply no_update_disciplined|]. split; [|rewrite live_app, live_loop; lia].
      destruct body as [f|].
      * destruct caps as [|[] caps]; try discriminate.
        assert (E : exists b, par_loop (true :: caps) n (Some f) = b ++ [DropRef true]).
        { unfold par_loop. cbn [rev]. rewrite map_app. cbn [map]. rewrite !app_assoc. eauto. }
        destruct E as (b & E). rewrite E, app_assoc. apply clean_declare. cbn.
        rewrite <- app_assoc, <- E, live_app, live_loop. lia.
      * apply no_change_clean; auto. intros o Ho. apply in_loop in Ho. destruct Ho as [(w & [->| ->])|(f & [=] & _)]; cbn; tauto.
    + split; [apply disciplined_snoc; auto|]. split.
      * apply clean_snoc; auto. destruct o; cbn in *; tauto.
      * rewrite live_app, L. destruct o; cbn in *; tauto || reflexivity.
Qed.
