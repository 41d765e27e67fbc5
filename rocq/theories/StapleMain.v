(** The staples computed by the ranks are those of the periodic lattice: main proof. *)
From Verif Require Import Base GeometryModel GeometrySpec GeometryProofs OwnerProofs FullLxProofs
  FullLxMain LabelProofs NeighProofs GeoMiscModel GeoMiscProofs HaloModel HaloProofs EdgeProofs Geometry_final StapleModel StapleSpec StapleProofs.

Lemma perp_facts mu inu : (mu < 4)%nat -> (inu < 3)%nat -> (perpDirs mu inu < 4)%nat /\ perpDirs mu inu <> mu /\ inu_of (perpDirs mu inu) mu = inu.
Proof.
  intros H1 H2. destruct mu as [|[|[|[|]]]]; [| | | |exfalso; clear -H1; lia]; (destruct inu as [|[|[|]]]; [| | |exfalso; clear -H2; lia]); cbn; auto with arith.
Qed.
Lemma perp_inv mu nu : (mu < 4)%nat -> (nu < 4)%nat -> nu <> mu ->
  (inu_of nu mu < 3)%nat /\ perpDirs mu (inu_of nu mu) = nu.
Proof.
  intros H1 H2 H3. destruct mu as [|[|[|[|]]]]; [| | | |exfalso; clear -H1; lia]; (destruct nu as [|[|[|[|]]]]; [| | | |exfalso; clear -H2; lia]);
  try congruence; cbn; auto with arith.
Qed.
Lemma in_dirs mu : In mu dirs <-> (mu < 4)%nat. Proof. unfold dirs. cbn. lia. Qed.
Lemma in_012 i : In i [0; 1; 2]%nat <-> (i < 3)%nat. Proof. cbn. lia. Qed.
Lemma entry_in l i A : entry l i = Some A -> In A l.
Proof. unfold entry. destruct (0 <=? i); [|discriminate]. apply nth_error_In. Qed.
Lemma in_entry l A : In A l -> exists i, 0 <= i < Z.of_nat (length l) /\ entry l i = Some A.
Proof.
  intros H. apply In_nth_error in H as [n E]. exists (Z.of_nat n). assert (n < length l)%nat by (apply nth_error_Some; congruence).
  split; [lia|]. unfold entry. replace (0 <=? Z.of_nat n) with true by lia. now rewrite Nat2Z.id.
Qed.
Lemma find_bulk_len g t s : find_bulk_sites g t = Some s ->
  Z.of_nat (length (loclxOfNonFwSurflx s)) = nonFwSurfVol g /\ Z.of_nat (length (loclxOfFwSurflx s)) = fwSurfVol g.
Proof.
  unfold find_bulk_sites. destruct (fold_left _ _ _) as [s'|]; [|discriminate]. cbv zeta.
  destruct (_ && _) eqn:E; [|discriminate]. intros [= <-]. rewrite !andb_true_iff, !Z.eqb_eq in E. tauto.
Qed.

Section G.
Context (g : grid) (Hv : valid_grid g = true).
Context (surf_sched : Z -> list Z) (Hsurf : forall q, 0 <= q < nranks g -> forall i, In i (surf_sched q) <-> 0 <= i < locVol g).

Section R.
Context (r : Z) (Hr : 0 <= r < nranks g).
Let rc := coordOfRank g r.
Lemma down_nb A mu : 0 <= A < locVol g -> (mu < 4)%nat ->
  (exists D, 0 <= D < locVol g /\ nb g r D mu = Some A) \/
  (isDirParallel g mu = true /\ exists b, bordOffset g mu <= b < bordOffset g mu + bordDirVol g mu /\ surflxOfBordlx g surf_sched r b = Some A).
Proof.
  intros HA Hmu. pose proof (rc_ok g Hv r Hr) as Hrc. fold rc in Hrc.
  destruct (neighbours_main g rc Hv Hrc) as [_ N2]. destruct (N2 A mu false HA Hmu) as (D & E2 & RD & E3). cbn [negb] in E3.
  destruct (Z_lt_ge_dec D (locVol g)) as [HD|HD]; [left; exists D; split; [lia|exact E3]|right].
  destruct (loc_true_glb g Hv rc A Hrc HA) as (_ & _ & He & Hn & Ei). set (y := coordOfLx A (locSize g)) in *.
  rewrite <- Ei in E2. rewrite (neigh_eq g Hv rc y mu false Hrc He ltac:(lia) Hmu) in E2. cbn [dsgn] in E2. injection E2 as E2.
  assert (K : nbw_at g mu y.[mu] = false).
  { apply not_true_is_false. intros K. pose proof (local_step g Hv rc A mu false D Hrc HA Hmu) as L. cbv iota in L. fold y in L.
    rewrite <- Ei in L at 1. rewrite (neigh_eq g Hv rc y mu false Hrc He ltac:(lia) Hmu) in L. cbn [dsgn] in L. rewrite E2 in L. apply (proj2 (L eq_refl)) in K. lia. }
  unfold nbw_at in K.
  assert (Hp : isDirParallel g mu = true) by (destruct (isDirParallel g mu); [reflexivity|cbn in K; discriminate]).
  assert (Ey : y.[mu] = 0) by (rewrite Hp in K; cbn in K; apply negb_false_iff, Z.eqb_eq in K; exact K).
  set (z := move y mu (-1)) in *. destruct (dir_facts g Hv mu Hmu) as (Hloc & _).
  assert (Ez : z.[mu] = -1) by (unfold z, move; rewrite nth_upd_eq by (rewrite (proj1 He); exact Hmu); lia).
  assert (Hz : ext_site g z). { apply (ext_upd g); auto. unfold isDirParallel in Hp. rewrite Hp. lia. }
  assert (Hin : inside g z mu = false) by (unfold inside; rewrite Ez; reflexivity).
  assert (Hn1 : n_out g z = 1%nat).
  { destruct (fullLx_region g Hv z Hz) as [[? ?]|[[? ?]|[? ?]]]; try lia.
    pose proof (n_out_move_le g Hv y mu (-1) (proj1 He) Hmu) as L. fold z in L. lia. }
  destruct (fullLx_bord g Hv z mu Hz Hn1 Hmu Hin) as [Ef Bf]. unfold side in Ef. rewrite Ez in Ef. cbn [Z.eqb Pos.eqb] in Ef.
  split; [exact Hp|]. exists (D - locVol g). split; [lia|].
  unfold surflxOfBordlx, rank_labels. fold rc. rewrite <- E2. rewrite (surf_bord g Hv rc (surf_sched r) z mu Hrc (Hsurf r Hr) Hz Hn1 Hmu Hin). f_equal.
  replace (pull g z mu) with y.
  - unfold y, loclxOfCoord. apply lxOfCoord_coordOfLx; [now apply locSize_pos|]. rewrite <- (locVol_prod g Hv). exact HA.
  - unfold pull. rewrite Ez. cbn [Z.eqb Pos.eqb]. unfold z, move. rewrite upd_upd. rewrite <- Ey. symmetry. apply upd_same. rewrite (proj1 He). exact Hmu.
Qed.
Lemma upper_border mu b : (mu < 4)%nat -> bordOffset g mu <= b < bordOffset g mu + bordDirVol g mu ->
  exists D, 0 <= D < locVol g /\ nb g r D mu = Some (locVol g + (bordVolh g + b)).
Proof.
  intros Hmu Hb. destruct (bord_site g Hv mu 1 b Hmu ltac:(auto) Hb) as (y & He & Hn & Hin & Hsd & Ei).
  destruct (bord_pair g Hv y mu He Hn Hmu Hin) as (Hes & Hn0 & Hbx & Ef & Ey & Ec).
  pose proof (lxOfCoord_bounds _ _ Hbx) as Hbd. rewrite <- (locVol_prod g Hv) in Hbd.
  exists (loclxOfCoord g (pull g y mu)). split; [exact Hbd|].
  unfold nb, rank_labels. rewrite <- Ef. rewrite (neigh_eq g Hv) by (auto using rc_ok; lia). cbn [dsgn]. rewrite Hsd in Ey. change (2 * 1 - 1) with 1 in Ey.
  rewrite <- Ey, Ei. f_equal. ring.
Qed.
End R.

Context {T : Type} (mul muldag dagmul add : T -> T -> T).
Context (ord : Z -> nat -> nat -> nat -> Z -> Z -> list Z) (Ho : all_orders ord).
Context (U : list Z -> nat -> T).
Let Gs := glbSize g.
Definition val (x : list Z) (mu k : nat) : T :=
  if Nat.ltb k 3 then bw_of mul dagmul Gs U x mu (perpDirs mu k) else fw_of mul muldag Gs U x mu (perpDirs mu (k - 3)).
Definition good (r : Z) (A : Z) (mu k : nat) (out : @sfield T) : Prop := exists x, gc g r A x /\ out A mu k = Some (val x mu k).
Definition cgood (r : Z) (conf : @qfield T) (i : Z) : Prop := forall x nu, gc g r i x -> (nu < 4)%nat -> conf i nu = Some (U x nu).
Definition cnear (r : Z) (conf : @qfield T) (A : Z) : Prop :=
  0 <= A < locVol g /\ cgood r conf A /\ forall mu B, (mu < 4)%nat -> nb g r A mu = Some B -> cgood r conf B.

Lemma put_good r A mu k v s B m h : (exists x, gc g r A x /\ v = Some (val x mu k)) -> good r B m h s -> good r B m h (stap_put s A mu k v).
Proof.
  intros (x & Hx & ->) (z & Hz & E). unfold good, stap_put.
  destruct (Z.eqb_spec B A) as [->|N]; [|exists z; split; assumption]. destruct (Nat.eqb_spec m mu) as [->|N]; [|exists z; split; assumption].
  destruct (Nat.eqb_spec h k) as [->|N]; [|exists z; split; assumption]. exists x. split; [exact Hx|reflexivity].
Qed.
Lemma put_gets r A mu k v s : (exists x, gc g r A x /\ v = Some (val x mu k)) -> good r A mu k (stap_put s A mu k v).
Proof. intros (x & Hx & ->). unfold good, stap_put. rewrite Z.eqb_refl, !Nat.eqb_refl. exists x. split; [exact Hx|reflexivity]. Qed.
Lemma gc_fun r i x y : gc g r i x -> gc g r i y -> x = y.
Proof. unfold gc. congruence. Qed.

Section Rank.
Context (r : Z) (Hr : 0 <= r < nranks g).
Lemma fw_val conf A mu inu : cnear r conf A -> (mu < 4)%nat -> (inu < 3)%nat ->
  exists v, (forall out, fw_staple mul muldag g r conf mu inu A out = stap_put out A mu (3 + inu) v) /\ exists x, gc g r A x /\ v = Some (val x mu (3 + inu)).
Proof.
  intros (HA & C0 & C1) Hmu Hi. destruct (perp_facts mu inu Hmu Hi) as (Hnu & _ & _). set (nu := perpDirs mu inu) in *.
  destruct (up_nb g Hv r Hr A nu HA Hnu) as (x & B & EB & _ & Hx & _ & HB). destruct (up_nb g Hv r Hr A mu HA Hmu) as (x' & F & EF & _ & Hx' & _ & HF).
  rewrite <- (gc_fun _ _ _ _ Hx Hx') in HF. clear x' Hx'.
  eexists. split; [intros out; unfold fw_staple; fold nu; rewrite EB, EF; reflexivity|]. exists x. split; [exact Hx|].
  rewrite (C0 x nu Hx Hnu), (C1 nu B Hnu EB _ mu HB Hmu), (C1 mu F Hmu EF _ nu HF Hnu). cbn [op2]. f_equal. unfold val.
  replace (Nat.ltb (3 + inu) 3) with false by (symmetry; apply Nat.ltb_ge; lia). replace (3 + inu - 3)%nat with inu by lia. reflexivity.
Qed.
Lemma back_step x mu : in_box x Gs -> (mu < 4)%nat -> back Gs (step Gs x mu) mu = x.
Proof.
  intros Hx Hmu. unfold back, step. rewrite (shift_shift Gs x mu 1 (-1)) by (try exact Hx; unfold Gs; rewrite (glb_len g Hv); exact Hmu).
  apply shift_0; [exact Hx|]. unfold Gs. rewrite (glb_len g Hv). exact Hmu.
Qed.
Lemma bw_val conf D mu inu : cnear r conf D -> (mu < 4)%nat -> (inu < 3)%nat ->
  exists A v, nb g r D (perpDirs mu inu) = Some A /\ (forall out, bw_staple mul dagmul g r conf mu inu D out = stap_put out A mu inu v) /\
    exists x, gc g r A x /\ v = Some (val x mu inu).
Proof.
  intros (HA & C0 & C1) Hmu Hi. destruct (perp_facts mu inu Hmu Hi) as (Hnu & _ & _). set (nu := perpDirs mu inu) in *.
  destruct (up_nb g Hv r Hr D nu HA Hnu) as (x & A & EA & _ & Hx & Hbx & HAx). destruct (up_nb g Hv r Hr D mu HA Hmu) as (x' & E & EE & _ & Hx' & _ & HE).
  rewrite <- (gc_fun _ _ _ _ Hx Hx') in HE. clear x' Hx'.
  eexists A, _. split; [exact EA|]. split; [intros out; unfold bw_staple; fold nu; rewrite EA, EE; reflexivity|].
  exists (step Gs x nu). split; [exact HAx|].
  rewrite (C0 x nu Hx Hnu), (C0 x mu Hx Hmu), (C1 mu E Hmu EE _ nu HE Hnu). cbn [op2]. f_equal.
  unfold val. replace (Nat.ltb inu 3) with true by (symmetry; apply Nat.ltb_lt; exact Hi). unfold bw_of. fold nu. rewrite !(back_step x nu Hbx Hnu). reflexivity.
Qed.

(** the loops on a list of sites *)
Lemma list_keep l a b c n L (body : Z -> @sfield T -> @sfield T) (P : @sfield T -> Prop) s : (forall A s, In A L -> P s -> P (body A s)) -> P s ->
  P (PAR ord l a b c 0 n (at_list L body) s).
Proof.
  intros H. apply (PAR_keep ord Ho). intros i s' _ HP. unfold at_list. destruct (entry L i) eqn:E; [|exact HP]. apply H; [eapply entry_in, E|exact HP].
Qed.
Lemma list_gets l a b c L (body : Z -> @sfield T -> @sfield T) (P : @sfield T -> Prop) s A n : n = Z.of_nat (length L) -> (forall A s, In A L -> P s -> P (body A s)) ->
  In A L -> (forall s, P (body A s)) -> P (PAR ord l a b c 0 n (at_list L body) s).
Proof.
  intros -> H HA H0. destruct (in_entry L A HA) as (i & Hi & Ei). apply (PAR_gets ord Ho) with i; [|exact Hi|intros s'; unfold at_list; rewrite Ei; apply H0].
  intros j s' _ HP. unfold at_list. destruct (entry L j) eqn:E; [|exact HP]. apply H; [eapply entry_in, E|exact HP].
Qed.

Definition fw_loop l M N n L conf := fun out : @sfield T => loop2 M N (fun mu inu => PAR ord r l mu inu 0 n (at_list L (fw_staple mul muldag g r conf mu inu))) out.
Lemma fw_loop_keep l n L conf out B m h : (forall A, In A L -> cnear r conf A) -> good r B m h out -> good r B m h (fw_loop l dirs [0; 1; 2]%nat n L conf out).
Proof.
  intros HL H. unfold fw_loop. apply loop2_keep; [|exact H]. intros mu inu s Hmu Hi Hs. apply in_dirs in Hmu. apply in_012 in Hi. apply list_keep; [|exact Hs].
  intros A s' HA Hs'. destruct (fw_val conf A mu inu (HL A HA) Hmu Hi) as (v & -> & Hv'). apply put_good; assumption.
Qed.
Lemma fw_loop_gets l n L conf out A mu inu : n = Z.of_nat (length L) -> (forall A, In A L -> cnear r conf A) -> In A L -> (mu < 4)%nat -> (inu < 3)%nat ->
  good r A mu (3 + inu) (fw_loop l dirs [0; 1; 2]%nat n L conf out).
Proof.
  intros En HL HA Hmu Hi. unfold fw_loop. apply loop2_gets with mu inu; [|now apply in_dirs|now apply in_012|].
  - intros m i s Hm Hi' Hs. apply in_dirs in Hm. apply in_012 in Hi'. apply list_keep; [|exact Hs].
    intros A' s' HA' Hs'. destruct (fw_val conf A' m i (HL A' HA') Hm Hi') as (v & -> & Hv'). apply put_good; assumption.
  - intros s. apply list_gets with A; [exact En| |exact HA|].
    + intros A' s' HA' Hs'. destruct (fw_val conf A' mu inu (HL A' HA') Hmu Hi) as (v & -> & Hv'). apply put_good; assumption.
    + intros s'. destruct (fw_val conf A mu inu (HL A HA) Hmu Hi) as (v & -> & Hv'). apply put_gets; assumption.
Qed.
Lemma bw_body_keep conf D mu inu s B m h : cnear r conf D -> (mu < 4)%nat -> (inu < 3)%nat -> good r B m h s -> good r B m h (bw_staple mul dagmul g r conf mu inu D s).
Proof. intros HD Hmu Hi Hs. destruct (bw_val conf D mu inu HD Hmu Hi) as (A & v & _ & -> & Hv'). apply put_good; assumption. Qed.
Lemma bw_body_gets conf D mu inu s A : cnear r conf D -> (mu < 4)%nat -> (inu < 3)%nat -> nb g r D (perpDirs mu inu) = Some A ->
  good r A mu inu (bw_staple mul dagmul g r conf mu inu D s).
Proof. intros HD Hmu Hi EA. destruct (bw_val conf D mu inu HD Hmu Hi) as (A' & v & EA' & -> & Hv'). rewrite EA in EA'. injection EA' as <-. apply put_gets; assumption. Qed.

Section Lists.
Context (s : surfLists) (Es : find_bulk_sites g (rank_labels g r) = Some s) (conf0 conf3 : @qfield T).
Context (H0 : forall i, 0 <= i < locVol g -> cgood r conf0 i) (H3 : forall i, here g i -> cgood r conf3 i).
Lemma lists_ok : (forall i, In i (loclxOfNonFwSurflx s) -> cnear r conf0 i) /\ (forall i, In i (loclxOfNonFwSurflx s) -> cnear r conf3 i) /\
  (forall i, In i (loclxOfFwSurflx s) -> cnear r conf3 i) /\ (forall i, 0 <= i < locVol g -> In i (loclxOfNonFwSurflx s) \/ In i (loclxOfFwSurflx s)) /\
  (forall i mu B, 0 <= i < locVol g -> (mu < 4)%nat -> nb g r i mu = Some B -> locVol g <= B -> In i (loclxOfFwSurflx s)).
Proof.
  destruct (bulk_main g (coordOfRank g r) Hv (rc_ok g Hv r Hr)) as (s' & E' & _ & _ & B3 & B4 & _).
  change (label_all_sites g (coordOfRank g r)) with (rank_labels g r) in *. rewrite Es in E'. injection E' as <-.
  assert (N3 : forall i, 0 <= i < locVol g -> cnear r conf3 i).
  { intros i Hi. split; [exact Hi|]. split; [apply H3; left; exact Hi|]. intros mu B Hmu EB. apply H3.
    destruct (up_nb g Hv r Hr i mu Hi Hmu) as (x & B' & EB' & HB & _). rewrite EB in EB'. injection EB' as <-. exact HB. }
  split; [|split; [|split; [|split]]].
  - intros i Hi. apply B3 in Hi as [Hi St]. split; [exact Hi|]. split; [apply H0; exact Hi|]. intros mu B Hmu EB. apply H0.
    destruct (up_nb g Hv r Hr i mu Hi Hmu) as (x & B' & EB' & HB & _). rewrite EB in EB'. injection EB' as <-.
    pose proof (St mu B Hmu EB). unfold here in HB. pose proof (vols_nonneg g Hv) as (V0 & V1 & V2). unfold bordVol in *. lia.
  - intros i Hi. apply B3 in Hi as [Hi _]. now apply N3.
  - intros i Hi. apply B4 in Hi as [Hi _]. now apply N3.
  - intros i Hi. destruct (in_dec Z.eq_dec i (loclxOfNonFwSurflx s)) as [H|H]; [now left|right]. apply B4. split; [exact Hi|]. intros St. apply H, B3. split; assumption.
  - intros i mu B Hi Hmu EB HB. apply B4. split; [exact Hi|]. intros St. pose proof (St mu B Hmu EB). lia.
Qed.

Lemma ok_nf0 i : In i (loclxOfNonFwSurflx s) -> cnear r conf0 i. Proof. apply lists_ok. Qed.
Lemma ok_nf3 i : In i (loclxOfNonFwSurflx s) -> cnear r conf3 i. Proof. apply lists_ok. Qed.
Lemma ok_f3 i : In i (loclxOfFwSurflx s) -> cnear r conf3 i. Proof. apply lists_ok. Qed.
Lemma step4_keep out B m h : good r B m h out -> good r B m h (fw_surf_bw mul dagmul g ord r s conf3 out).
Proof.
  intros H. unfold fw_surf_bw. apply loop2_keep; [|exact H]. intros inu mu t Hi Hmu Ht. apply in_dirs in Hmu. apply in_012 in Hi. apply list_keep; [|exact Ht].
  intros A t' HA Ht'. apply bw_body_keep; try assumption. auto using ok_f3, ok_nf3.
Qed.
Lemma step4_gets out D mu inu A : In D (loclxOfFwSurflx s) -> (mu < 4)%nat -> (inu < 3)%nat -> nb g r D (perpDirs mu inu) = Some A ->
  good r A mu inu (fw_surf_bw mul dagmul g ord r s conf3 out).
Proof.
  intros HD Hmu Hi EA. unfold fw_surf_bw. apply loop2_gets with inu mu; [|now apply in_012|now apply in_dirs|].
  - intros i m t Hi' Hm Ht. apply in_dirs in Hm. apply in_012 in Hi'. apply list_keep; [|exact Ht]. intros A' t' HA' Ht'. apply bw_body_keep; try assumption. auto using ok_f3, ok_nf3.
  - intros t. apply list_gets with D; [symmetry; eapply find_bulk_len, Es| |exact HD|].
    + intros A' t' HA' Ht'. apply bw_body_keep; try assumption. auto using ok_f3, ok_nf3.
    + intros t'. apply bw_body_gets; try assumption. auto using ok_f3, ok_nf3.
Qed.
Lemma step5_keep out B m h : good r B m h out -> good r B m h (non_fw_surf_bw mul dagmul g ord r s conf3 out).
Proof.
  intros H. unfold non_fw_surf_bw. apply loop2_keep; [|exact H]. intros mu inu t Hmu Hi Ht. apply in_dirs in Hmu. apply in_012 in Hi. apply list_keep; [|exact Ht].
  intros A t' HA Ht'. apply bw_body_keep; try assumption. auto using ok_f3, ok_nf3.
Qed.
Lemma step5_gets out D mu inu A : In D (loclxOfNonFwSurflx s) -> (mu < 4)%nat -> (inu < 3)%nat -> nb g r D (perpDirs mu inu) = Some A ->
  good r A mu inu (non_fw_surf_bw mul dagmul g ord r s conf3 out).
Proof.
  intros HD Hmu Hi EA. unfold non_fw_surf_bw. apply loop2_gets with mu inu; [|now apply in_dirs|now apply in_012|].
  - intros m i t Hm Hi' Ht. apply in_dirs in Hm. apply in_012 in Hi'. apply list_keep; [|exact Ht]. intros A' t' HA' Ht'. apply bw_body_keep; try assumption. auto using ok_f3, ok_nf3.
  - intros t. apply list_gets with D; [symmetry; eapply find_bulk_len, Es| |exact HD|].
    + intros A' t' HA' Ht'. apply bw_body_keep; try assumption. auto using ok_f3, ok_nf3.
    + intros t'. apply bw_body_gets; try assumption. auto using ok_f3, ok_nf3.
Qed.
Lemma step2_gets out A mu inu : In A (loclxOfNonFwSurflx s) -> (mu < 4)%nat -> (inu < 3)%nat ->
  good r A mu (3 + inu) (non_fw_surf_fw mul muldag g ord r s conf0 out).
Proof. intros HA Hmu Hi. apply (fw_loop_gets 2); try assumption; [symmetry; eapply find_bulk_len, Es|auto using ok_nf0, ok_f3]. Qed.
Lemma step6_keep out B m h : good r B m h out -> good r B m h (fw_surf_fw mul muldag g ord r s conf3 out).
Proof. intros H. apply (fw_loop_keep 7); [auto using ok_f3|exact H]. Qed.
Lemma step6_gets out A mu inu : In A (loclxOfFwSurflx s) -> (mu < 4)%nat -> (inu < 3)%nat ->
  good r A mu (3 + inu) (fw_surf_fw mul muldag g ord r s conf3 out).
Proof. intros HA Hmu Hi. apply (fw_loop_gets 7); try assumption; [symmetry; eapply find_bulk_len, Es|auto using ok_nf0, ok_f3]. Qed.
End Lists.
End Rank.
End G.
