From Coq Require Import List Bool ZArith Lia.
From Verif Require Import MemModel VectModel VectSpec.
Import ListNotations.
Open Scope Z_scope.

Lemma some_inj : forall A (x y : A), Some x = Some y -> x = y.
Proof. congruence. Qed.

Definition hsz := nissa_vect_sizeof.
Lemma hsz_val : hsz = 112. Proof. reflexivity. Qed.

Lemma mupd_eq : forall m a v, mupd m a v a = v.
Proof. intros. unfold mupd. now rewrite Z.eqb_refl. Qed.
Lemma mupd_ne : forall m a b v, b <> a -> mupd m a v b = m b.
Proof. intros. unfold mupd. now rewrite (proj2 (Z.eqb_neq b a)). Qed.

(* doubly linked list of headers, [prev] before and [nxt] after *)
Fixpoint dll (m : Z -> option nvect) (prev : Z) (l : list Z) (nxt : Z) : Prop :=
  match l with
  | [] => True
  | a :: r => exists v, m a = Some v /\ v_prev v = prev /\ v_next v = hd nxt r /\ dll m a r nxt
  end.

Lemma dll_app : forall m l1 l2 prev nxt,
  dll m prev (l1 ++ l2) nxt <-> dll m prev l1 (hd nxt l2) /\ dll m (last l1 prev) l2 nxt.
Proof.
  induction l1 as [|a l1 IH]; intros l2 prev nxt; cbn [app dll].
  - cbn. tauto.
  - replace (last (a :: l1) prev) with (last l1 a).
    2:{ clear. destruct l1 as [|b l1]; auto. cbn. revert b. induction l1; auto. intros. cbn in *. apply IHl1. }
    split.
    + intros (v & E & P & N & D). apply IH in D. destruct D as [D1 D2]. split; auto.
      exists v. repeat split; auto. rewrite N. destruct l1; auto.
    + intros ((v & E & P & N & D1) & D2). exists v. repeat split; auto.
      * rewrite N. destruct l1; auto.
      * apply IH. auto.
Qed.

Lemma dll_frame : forall m a v l prev nxt, ~ In a l ->
  dll m prev l nxt -> dll (mupd m a v) prev l nxt.
Proof.
  induction l as [|b l IH]; intros prev nxt NI; cbn; auto.
  intros (w & E & P & N & D). exists w. cbn in NI. rewrite mupd_ne by (intros ->; tauto).
  repeat split; auto. all: try (apply IH; auto; tauto).
Qed.

(* changing neither links *)
Lemma dll_same_links : forall m a v w l prev nxt,
  m a = Some v -> v_prev w = v_prev v -> v_next w = v_next v ->
  dll m prev l nxt -> dll (mupd m a (Some w)) prev l nxt.
Proof.
  induction l as [|b l IH]; intros prev nxt E P N; cbn; auto.
  intros (u & Eu & Pu & Nu & D).
  destruct (Z.eq_dec b a) as [->|H].
  - rewrite mupd_eq. exists w. rewrite Eu in E. injection E as ->.
    repeat split; auto; try congruence. all: apply IH; auto.
  - rewrite mupd_ne by auto. exists u. repeat split; auto. all: apply IH; auto.
Qed.

Lemma dll_set_last : forall m l y v prev nxt nxt', NoDup (l ++ [y]) ->
  m y = Some v -> dll m prev (l ++ [y]) nxt ->
  dll (mupd m y (Some (with_next v nxt'))) prev (l ++ [y]) nxt'.
Proof.
  intros m l y v prev nxt nxt' N E D. apply dll_app in D. destruct D as [D1 D2].
  apply dll_app. cbn [hd] in *. split.
  - apply dll_frame; auto. apply NoDup_remove_2 in N. now rewrite app_nil_r in N.
  - cbn in *. destruct D2 as (w & E' & P & Nx & _). rewrite E' in E. injection E as ->.
    rewrite mupd_eq. exists (with_next v nxt'). repeat split; auto.
Qed.

Lemma dll_set_first : forall m y l v prev prev' nxt, NoDup (y :: l) ->
  m y = Some v -> dll m prev (y :: l) nxt ->
  dll (mupd m y (Some (with_prev v prev'))) prev' (y :: l) nxt.
Proof.
  intros m y l v prev prev' nxt N E (w & E' & P & Nx & D). inversion N; subst. cbn.
  rewrite mupd_eq. rewrite E' in E. injection E as ->. exists (with_prev v prev').
  repeat split; auto. apply dll_frame; auto.
Qed.

Lemma dll_some : forall m l prev nxt a, dll m prev l nxt -> In a l -> exists v, m a = Some v.
Proof.
  induction l as [|b l IH]; cbn; intros prev nxt a D H; [easy|].
  destruct D as (v & E & _ & _ & D). destruct H as [<-|H]; eauto.
Qed.

(* the information of the header agrees with what the user knows *)
Definition agrees (m : Z -> option nvect) (l : live) : Prop :=
  forall p i, In (p, i) l -> exists v, m (p - hsz) = Some v /\
    v_nel v = i_nel i /\ v_size v = i_size i /\ v_flag v = i_flag i /\ v_data v = i_data i.

Definition addrs (l : live) : list Z := map (fun e => fst e - hsz) l.

Record vinv (main : Z) (l : live) (peak : Z) (s : vstate) : Prop := mkVinv {
  vi_init : vs_inited s = true;
  vi_nz : main <> 0 /\ ~ In 0 (addrs l);
  vi_nd : NoDup (main :: addrs l);
  vi_dll : dll (vs_mem s) 0 (main :: addrs l) 0;
  vi_last : vs_last s = last (addrs l) main;
  vi_ag : agrees (vs_mem s) l;
  vi_main : exists v, vs_mem s main = Some v /\ v_nel v * v_size v = 0;
  vi_req : vs_required s = bytes l;
  vi_max : vs_max s = peak;
  vi_pk : bytes l <= peak;
  vi_pos : forall p i, In (p, i) l -> 0 <= i_nel i /\ 0 <= i_size i;
  vi_fl : forall p i, In (p, i) l -> 0 <= i_flag i < 2 ^ 32
}.

Lemma bytes_app : forall a b, bytes (a ++ b) = bytes a + bytes b.
Proof. induction a; intros; cbn [app bytes fold_right] in *; auto. unfold bytes in *. rewrite IHa. lia. Qed.

Lemma addrs_in : forall l p, In p (map fst l) <-> In (p - hsz) (addrs l).
Proof.
  intros l p. unfold addrs. rewrite !in_map_iff. split.
  - intros (e & <- & H). eauto.
  - intros (e & E & H). exists e. split; [lia|auto].
Qed.

Lemma addrs_app : forall a b, addrs (a ++ b) = addrs a ++ addrs b.
Proof. intros. apply map_app. Qed.

Lemma live_split : forall l p, In p (map fst l) -> NoDup (addrs l) ->
  exists l1 i l2, l = l1 ++ (p, i) :: l2 /\ ~ In p (map fst l1) /\ ~ In p (map fst l2).
Proof.
  intros l p H N. apply in_map_iff in H. destruct H as ((q & i) & E & H). cbn in E. subst q.
  apply in_split in H. destruct H as (l1 & l2 & ->). exists l1, i, l2. split; auto.
  rewrite addrs_app in N. cbn in N. apply NoDup_remove_2 in N. rewrite in_app_iff in N.
  rewrite !addrs_in. tauto.
Qed.

Lemma drop_notin : forall l p, ~ In p (map fst l) -> drop p l = l.
Proof.
  induction l as [|(q & i) l IH]; cbn; intros p H; auto.
  destruct (q =? p) eqn:E; cbn.
  - apply Z.eqb_eq in E. tauto.
  - f_equal. apply IH. tauto.
Qed.

Lemma drop_split : forall l1 l2 p i, ~ In p (map fst l1) -> ~ In p (map fst l2) ->
  drop p (l1 ++ (p, i) :: l2) = l1 ++ l2.
Proof.
  intros l1 l2 p i H1 H2. unfold drop. rewrite filter_app. cbn. rewrite Z.eqb_refl. cbn.
  fold (drop p l1) (drop p l2). now rewrite !drop_notin.
Qed.

Lemma change_notin : forall l p f, ~ In p (map fst l) -> change p f l = l.
Proof.
  induction l as [|(q & i) l IH]; cbn; intros p f H; auto.
  destruct (q =? p) eqn:E; cbn.
  - apply Z.eqb_eq in E. tauto.
  - f_equal. apply IH. tauto.
Qed.

Lemma change_split : forall l1 l2 p i f, ~ In p (map fst l1) -> ~ In p (map fst l2) ->
  change p f (l1 ++ (p, i) :: l2) = l1 ++ (p, f i) :: l2.
Proof.
  intros l1 l2 p i f H1 H2. unfold change. rewrite map_app. cbn. rewrite Z.eqb_refl.
  fold (change p f l1) (change p f l2). now rewrite !change_notin.
Qed.

Lemma agrees_frame : forall m l a v, ~ In a (addrs l) -> agrees m l -> agrees (mupd m a v) l.
Proof.
  intros m l a v N A p i H. rewrite mupd_ne; [now apply A|].
  intros E. apply N. unfold addrs. apply in_map_iff. exists (p, i). auto.
Qed.

(* changing the links only *)
Lemma agrees_links : forall m l a v w, m a = Some v ->
  v_nel w = v_nel v -> v_size w = v_size v -> v_flag w = v_flag v -> v_data w = v_data v ->
  agrees m l -> agrees (mupd m a (Some w)) l.
Proof.
  intros m l a v w E H1 H2 H3 H4 A p i H. destruct (A p i H) as (u & Eu & A1 & A2 & A3 & A4).
  destruct (Z.eq_dec (p - hsz) a) as [Ea|Ea].
  - rewrite Ea, mupd_eq. exists w. rewrite Ea, E in Eu. injection Eu as <-.
    repeat split; congruence.
  - rewrite mupd_ne by auto. exists u. auto.
Qed.

Lemma last_in : forall (l : list Z) d, In (last l d) (d :: l).
Proof.
  induction l as [|a l IH]; intros d; [now left|].
  destruct l as [|b l]; [cbn; auto|].
  destruct (IH d) as [H|H]; [|right; right; exact H].
  change (last (a :: b :: l) d) with (last (b :: l) d). rewrite <- H. now left.
Qed.

Lemma last_snoc : forall (l : list Z) a d, last (l ++ [a]) d = a.
Proof. intros. apply last_last. Qed.

Lemma last_cons' : forall (l : list Z) a d, last (a :: l) d = last l a.
Proof.
  induction l as [|b l IH]; intros a d; auto.
  change (last (a :: b :: l) d) with (last (b :: l) d). now rewrite !IH.
Qed.

Lemma last_app_cons : forall (l : list Z) b r d, last (l ++ b :: r) d = last r b.
Proof.
  induction l as [|a l IH]; intros b r d; cbn [app]; [apply last_cons'|].
  rewrite last_cons'. apply IH.
Qed.

Lemma last_split : forall (l : list Z) d, exists l', d :: l = l' ++ [last l d].
Proof.
  induction l as [|a l IH]; intros d.
  - now exists [].
  - destruct (IH a) as (l' & E). exists (d :: l'). cbn [app]. f_equal.
    now rewrite last_cons'.
Qed.

Lemma nodup_app_r : forall (A : Type) (a b : list A), NoDup (a ++ b) -> NoDup b.
Proof. induction a; cbn; intros b H; auto. inversion H; auto. Qed.
Lemma nodup_app_l : forall (A : Type) (a b : list A), NoDup (a ++ b) -> NoDup a.
Proof.
  induction a; cbn; intros b H; constructor; inversion H; subst; eauto.
  intros Hin. apply H2. apply in_app_iff. auto.
Qed.

Lemma malloc_inv : forall main l peak s nel size ans junk,
  vinv main l peak s -> 0 <= nel -> 0 <= size ->
  (match ans with
   | Some a => a <> 0 /\ a <> main /\ ~ known l (a + nissa_vect_sizeof)
   | None => True end) ->
  match internal_nissa_malloc main nel size ans junk s with
  | Ok (p, s') =>
      ans = Some (p - hsz) /\ p mod 16 = 0 /\
      let l' := l ++ [(p, mkI nel size 0 junk)] in
      vinv main l' (Z.max peak (bytes l')) s'
  | Crash => match ans with Some a => a mod 16 <> 0 | None => True end
  | Undef => False
  end.
Proof.
  intros main l peak s nel size ans junk I Hn Hs HA.
  destruct I as [II (NZ1 & NZ2) ND DL LA AG MA RQ MX PK PO FL].
  unfold internal_nissa_malloc, initialize_main_vect. rewrite II.
  destruct ans as [a|]; [|auto]. destruct HA as (A1 & A2 & A3).
  assert (NI : ~ In a (addrs l)).
  { unfold known in A3. rewrite addrs_in in A3.
    replace (a + nissa_vect_sizeof - hsz) with a in A3 by (unfold hsz; lia). auto. }
  set (nv := mkV nel size (vs_last s) 0 0 junk).
  set (mem1 := mupd (vs_mem s) a (Some nv)).
  assert (NIM : ~ In a (main :: addrs l)) by (cbn; intuition).
  pose proof (last_in (addrs l) main) as LI. rewrite <- LA in LI.
  assert (DL1 : dll mem1 0 (main :: addrs l) 0) by now apply dll_frame.
  destruct (dll_some _ _ _ _ _ DL1 LI) as (lv & EL). cbv zeta.
  unfold deref at 1. rewrite EL. cbn [rbind].
  assert (HM : (a + nissa_vect_sizeof) mod NISSA_VECT_ALIGNMENT = a mod 16).
  { change nissa_vect_sizeof with (7 * 16). change NISSA_VECT_ALIGNMENT with 16.
    now rewrite Z.mod_add. }
  rewrite HM. destruct (a mod 16 =? 0) eqn:EA; cbn [negb].
  2:{ now apply Z.eqb_neq in EA. }
  apply Z.eqb_eq in EA. split; [unfold hsz; do 2 f_equal; lia|].
  split; [exact (eq_trans HM EA)|].
  set (p := a + nissa_vect_sizeof).
  assert (Ep : p - hsz = a) by (unfold p, hsz; lia).
  assert (EAD : addrs (l ++ [(p, mkI nel size 0 junk)]) = addrs l ++ [a]).
  { rewrite addrs_app. unfold addrs at 2. cbn [map fst]. now rewrite Ep. }
  assert (NAL : a <> vs_last s) by (intros ->; tauto).
  destruct (last_split (addrs l) main) as (pre & SP). rewrite <- LA in SP.
  split; cbn [vs_inited vs_mem vs_last vs_required vs_max].
  - auto.
  - split; auto. rewrite EAD, in_app_iff. cbn. intuition.
  - rewrite EAD. change (main :: addrs l ++ [a]) with ((main :: addrs l) ++ [a]).
    apply NoDup_rev in ND. rewrite <- (rev_involutive ((main :: addrs l) ++ [a])).
    apply NoDup_rev. rewrite rev_app_distr. cbn [rev app]. constructor; auto.
    change (rev (addrs l) ++ [main]) with (rev (main :: addrs l)). now rewrite <- in_rev.
  - rewrite EAD. change (main :: addrs l ++ [a]) with ((main :: addrs l) ++ [a]).
    apply dll_app. rewrite SP. split.
    + cbn [hd]. apply dll_set_last with (nxt := 0); auto; rewrite <- SP; auto.
    + rewrite last_snoc. cbn. rewrite mupd_ne by auto. unfold mem1. rewrite mupd_eq.
      exists nv. auto.
  - rewrite EAD, last_snoc. auto.
  - assert (AG1 : agrees mem1 (l ++ [(p, mkI nel size 0 junk)])).
    { intros q i H. apply in_app_iff in H. destruct H as [H|[H|[]]].
      - unfold mem1. rewrite mupd_ne; [now apply AG|].
        intros E. apply NI. rewrite <- E. apply in_map_iff. now exists (q, i).
      - injection H as <- <-. rewrite Ep. unfold mem1. rewrite mupd_eq. exists nv. auto. }
    eapply agrees_links; eauto.
  - destruct MA as (v & E & Z0). destruct (Z.eq_dec main (vs_last s)) as [EM|EM].
    + rewrite EM, mupd_eq. exists (with_next lv a). split; auto. cbn.
      rewrite <- EM in EL. unfold mem1 in EL. rewrite mupd_ne in EL by auto. congruence.
    + rewrite mupd_ne by auto. unfold mem1. rewrite mupd_ne by auto. eauto.
  - rewrite RQ, bytes_app. cbn. lia.
  - rewrite MX, RQ, bytes_app. cbn. f_equal. lia.
  - lia.
  - intros q i H. apply in_app_iff in H. destruct H as [H|[H|[]]]; eauto.
    injection H as <- <-. auto.
  - intros q i H. apply in_app_iff in H. destruct H as [H|[H|[]]]; eauto.
    injection H as <- <-. cbn. lia.
Qed.

Lemma free_inv : forall main l peak s p, vinv main l peak s -> known l p ->
  exists s', internal_nissa_free p s = Ok s' /\ vinv main (drop p l) peak s' /\
             vs_mem s' (p - hsz) = None.
Proof.
  intros main l peak s p I K.
  destruct I as [II (NZ1 & NZ2) ND DL LA AG MA RQ MX PK PO FL].
  assert (ND' : NoDup (addrs l)) by now inversion ND.
  destruct (live_split l p K ND') as (l1 & i & l2 & El & N1 & N2).
  rewrite El, drop_split by auto. rewrite El in *. clear K El l.
  rewrite addrs_app in *. cbn [addrs map fst] in *. fold (addrs l1) (addrs l2) in *.
  set (a := p - hsz) in *.
  assert (N1' : ~ In a (addrs l1)) by (unfold a; now rewrite <- addrs_in).
  assert (N2' : ~ In a (addrs l2)) by (unfold a; now rewrite <- addrs_in).
  destruct (last_split (addrs l1) main) as (pre & SP).
  set (pv := last (addrs l1) main) in *.
  change (main :: addrs l1 ++ a :: addrs l2) with ((main :: addrs l1) ++ a :: addrs l2) in *.
  apply dll_app in DL. destruct DL as [DL1 DL2].
  assert (LP : last (main :: addrs l1) 0 = pv) by (rewrite SP; apply last_snoc).
  rewrite LP in DL2. cbn [hd] in DL1. destruct DL2 as (v & Ev & Pv & Nv & DL2).
  assert (MA' : a <> main) by (intros E; rewrite <- E in ND; cbn in ND; inversion ND; subst; apply H1, in_app_iff; right; now left).
  assert (AP : a <> pv).
  { pose proof (last_in (addrs l1) main) as H. fold pv in H. intros E. rewrite <- E in H.
    destruct H as [H|H]; [congruence|tauto]. }
  assert (PIN : In pv (main :: addrs l1)) by apply last_in.
  destruct (dll_some _ _ _ _ _ DL1 PIN) as (pvv & EPV).
  unfold internal_nissa_free, get_vect. fold hsz. fold a. cbv zeta.
  unfold deref at 1. rewrite Ev. cbn [rbind]. rewrite Pv. unfold deref at 1. rewrite EPV. cbn [rbind].
  assert (NDP : NoDup (pre ++ [pv])).
  { rewrite <- SP. eapply nodup_app_l. exact ND. }
  assert (NPV2 : ~ In pv (addrs l2)).
  { rewrite SP in ND. rewrite <- app_assoc in ND. cbn in ND.
    intros H. apply NoDup_remove_2 in ND. apply ND. rewrite in_app_iff. right. now right. }
  set (mem1 := mupd (vs_mem s) pv (Some (with_next pvv (v_next v)))).
  assert (D1 : dll mem1 0 (pre ++ [pv]) (v_next v)).
  { apply dll_set_last with (nxt := a); auto. now rewrite <- SP. }
  assert (D2 : dll mem1 a (addrs l2) 0) by now apply dll_frame.
  assert (AG1 : agrees mem1 (l1 ++ (p, i) :: l2)) by (eapply agrees_links; eauto).
  assert (EV1 : mem1 a = Some v) by (unfold mem1; now rewrite mupd_ne).
  assert (MA1 : exists v0, mem1 main = Some v0 /\ v_nel v0 * v_size v0 = 0).
  { destruct MA as (v0 & E0 & Z0). unfold mem1. destruct (Z.eq_dec main pv) as [E|E].
    - rewrite E, mupd_eq. eexists. split; [reflexivity|]. cbn. rewrite <- E in EPV.
      rewrite EPV in E0. injection E0 as ->. auto.
    - rewrite mupd_ne by auto. eauto. }
  destruct (AG p i) as (v' & Ev' & A1 & A2 & A3 & A4); [apply in_app_iff; right; now left|].
  fold a in Ev'. rewrite Ev in Ev'. injection Ev' as <-.
  assert (BY : bytes (l1 ++ (p, i) :: l2) = bytes (l1 ++ l2) + v_size v * v_nel v).
  { rewrite !bytes_app. cbn. rewrite A1, A2. unfold bytes. lia. }
  assert (POB : 0 <= v_size v * v_nel v).
  { rewrite A1, A2. destruct (PO p i); [apply in_app_iff; right; now left|]. nia. }
  (* what remains after relinking, for both cases *)
  assert (FIN : forall mem2 lst,
    (forall b, b <> hd 0 (addrs l2) \/ addrs l2 = [] -> mem2 b = mem1 b) ->
    agrees mem2 (l1 ++ l2) -> dll mem2 pv (addrs l2) 0 -> lst = last (addrs l1 ++ addrs l2) main ->
    let s' := mkVs (mupd mem2 a None) lst (vs_required s - v_size v * v_nel v) (vs_max s) (vs_inited s) in
    vinv main (l1 ++ l2) peak s' /\ vs_mem s' a = None).
  { intros mem2 lst FR AG2 D22 LST s'. split; [|cbn; apply mupd_eq].
    assert (NDR : NoDup ((main :: addrs l1) ++ addrs l2)) by (eapply NoDup_remove_1; exact ND).
    assert (DIS : forall b, In b (main :: addrs l1) -> addrs l2 <> [] -> b <> hd 0 (addrs l2)).
    { intros b Hb Hne. destruct (addrs l2) as [|y r]; [easy|]. cbn.
      intros ->. apply NoDup_remove_2 in NDR. apply NDR, in_app_iff. now left. }
    assert (FR' : forall b, In b (main :: addrs l1) -> mem2 b = mem1 b).
    { intros b Hb. apply FR. destruct (addrs l2) as [|y r] eqn:E; [now right|left].
      apply DIS; [auto|easy]. }
    split; cbn [vs_inited vs_mem vs_last vs_required vs_max s']; rewrite ?addrs_app; auto.
    - split; auto. rewrite !in_app_iff in *. cbn in *. tauto.
    - change (main :: addrs l1 ++ addrs l2) with ((main :: addrs l1) ++ addrs l2).
      apply dll_frame.
      { rewrite in_app_iff. cbn. intuition. }
      apply dll_app. rewrite SP. rewrite last_snoc. split; [|exact D22].
      replace (hd 0 (addrs l2)) with (v_next v) by (rewrite Nv; now destruct (addrs l2)).
      assert (EX : forall l prev nxt, (forall b, In b l -> mem2 b = mem1 b) -> dll mem1 prev l nxt -> dll mem2 prev l nxt).
      { clear. induction l as [|b l IH]; cbn; intros prev nxt H; auto.
        intros (w & E & P & N & D). exists w. rewrite H by auto. repeat split; auto. }
      apply EX; auto. intros b Hb. apply FR'. now rewrite SP.
    - apply agrees_frame; auto. rewrite addrs_app, in_app_iff. tauto.
    - rewrite mupd_ne by auto. rewrite FR' by (now left). auto.
    - lia.
    - lia.
    - intros q j H. apply (PO q j). rewrite in_app_iff in *. cbn. tauto.
    - intros q j H. apply (FL q j). rewrite in_app_iff in *. cbn. tauto. }
  assert (AGD : agrees mem1 (l1 ++ l2)).
  { intros q j H. apply AG1. rewrite in_app_iff in *. cbn. tauto. }
  destruct (addrs l2) as [|y r] eqn:E2.
  - cbn in Nv. rewrite Nv in *. cbn [negb Z.eqb rbind].
    edestruct (FIN mem1 pv) as [V1 V2]; auto.
    { now rewrite app_nil_r. }
    eexists. split; [reflexivity|]. split; [exact V1|exact V2].
  - cbn in Nv. 
    assert (Y0 : y <> 0).
    { intros ->. apply NZ2. apply in_app_iff. right. right. now left. }
    rewrite Nv in *. replace (y =? 0) with false by (symmetry; now apply Z.eqb_neq). cbn [negb].
    destruct (dll_some _ _ _ _ y D2) as (yv & EY); [now left|].
    unfold deref at 1. fold mem1. rewrite EY. cbn [rbind].
    assert (NDY : NoDup (y :: r)).
    { apply nodup_app_r in ND. inversion ND; auto. }
    edestruct (FIN (mupd mem1 y (Some (with_prev yv pv))) (vs_last s)) as [V1 V2].
    + intros b [Hb|Hb]; [|easy]. now rewrite mupd_ne.
    + eapply agrees_links; eauto.
    + apply dll_set_first with (prev := a); auto.
    + rewrite LA, !last_app_cons. now rewrite last_cons'.
    + eexists. split; [reflexivity|]. split; [exact V1|exact V2].
Qed.

(* changing flag and content of one vector *)
Lemma content_inv : forall main l peak s p f fl d, vinv main l peak s -> known l p ->
  0 <= fl < 2 ^ 32 ->
  (forall i v, In (p, i) l -> vs_mem s (p - hsz) = Some v ->
     f i = mkI (i_nel i) (i_size i) fl d) ->
  exists v, vs_mem s (p - hsz) = Some v /\
  vinv main (change p f l) peak
    (mkVs (mupd (vs_mem s) (p - hsz) (Some (with_content v fl d)))
          (vs_last s) (vs_required s) (vs_max s) (vs_inited s)).
Proof.
  intros main l peak s p f fl d I K FLB HF.
  destruct I as [II (NZ1 & NZ2) ND DL LA AG MA RQ MX PK PO FL].
  assert (ND' : NoDup (addrs l)) by now inversion ND.
  destruct (live_split l p K ND') as (l1 & i & l2 & El & N1 & N2).
  assert (Hin : In (p, i) l) by (rewrite El; apply in_app_iff; right; now left).
  destruct (AG p i Hin) as (v & Ev & A1 & A2 & A3 & A4).
  exists v. split; [auto|]. specialize (HF i v Hin Ev).
  assert (EC : change p f l = l1 ++ (p, f i) :: l2) by (rewrite El; now apply change_split).
  assert (EA : addrs (change p f l) = addrs l).
  { rewrite EC, El. unfold addrs. rewrite !map_app. reflexivity. }
  assert (EB : bytes (change p f l) = bytes l).
  { rewrite EC, El, !bytes_app. cbn. rewrite HF. reflexivity. }
  assert (MN : main <> p - hsz).
  { intros E. pose proof (NoDup_cons_iff main (addrs l)) as NC. apply NC in ND.
    destruct ND as [NM _]. apply NM. rewrite E. now apply addrs_in. }
  split; cbn [vs_inited vs_mem vs_last vs_required vs_max]; rewrite ?EA, ?EB; auto.
  - eapply dll_same_links; eauto.
  - intros q j H. rewrite EC in H. apply in_app_iff in H. cbn in H.
    assert (HO : (q, j) <> (p, f i) -> In (q, j) l /\ q <> p).
    { intros Hne. rewrite El. rewrite in_app_iff. cbn.
      destruct H as [H|[H|H]]; [|congruence|].
      - split; auto. intros ->. apply N1. now apply (in_map fst) in H.
      - split; auto. intros ->. apply N2. now apply (in_map fst) in H. }
    destruct (Z.eq_dec q p) as [->|Hq].
    + assert (j = f i).
      { destruct H as [H|[H|H]]; [exfalso; apply N1; now apply (in_map fst) in H| |
          exfalso; apply N2; now apply (in_map fst) in H]. congruence. }
      subst j. rewrite mupd_eq. eexists. split; [reflexivity|]. rewrite HF. cbn. auto.
    + destruct HO as [HO _]; [congruence|]. rewrite mupd_ne by lia. now apply AG.
  - rewrite mupd_ne by auto. auto.
  - intros q j H. rewrite EC in H. apply in_app_iff in H. cbn in H.
    destruct H as [H|[H|H]].
    + apply (PO q j). rewrite El, in_app_iff. auto.
    + injection H as <- <-. rewrite HF. cbn. apply (PO p i). auto.
    + apply (PO q j). rewrite El, in_app_iff. cbn. auto.
  - intros q j H. rewrite EC in H. apply in_app_iff in H. cbn in H.
    destruct H as [H|[H|H]].
    + apply (FL q j). rewrite El, in_app_iff. auto.
    + injection H as <- <-. rewrite HF. cbn. auto.
    + apply (FL q j). rewrite El, in_app_iff. cbn. auto.
Qed.

Lemma change_id : forall l p f, (forall i, In (p, i) l -> f i = i) -> change p f l = l.
Proof.
  induction l as [|(q & j) l IH]; intros p f H; cbn; auto.
  unfold change in IH. rewrite IH by (intros; apply H; now right).
  destruct (q =? p) eqn:E; auto. apply Z.eqb_eq in E. subst. rewrite H; auto. now left.
Qed.

Lemma lookup_in : forall l p i, NoDup (map fst l) -> In (p, i) l -> lookup l p = Some i.
Proof.
  induction l as [|(q & j) l IH]; cbn [map fst]; intros p i N H; [easy|].
  inversion N; subst. unfold lookup. cbn [find fst].
  destruct (q =? p) eqn:E.
  - apply Z.eqb_eq in E. subst. destruct H as [H|H]; [congruence|].
    exfalso. apply H2. now apply (in_map fst) in H.
  - destruct H as [H|H]; [injection H as -> ->; rewrite Z.eqb_refl in E; easy|].
    now apply IH.
Qed.

Lemma live_nodup : forall main l peak s, vinv main l peak s -> NoDup (map fst l).
Proof.
  intros main l peak s I. assert (N : NoDup (addrs l)) by (pose proof (vi_nd _ _ _ _ I) as N; now inversion N).
  unfold addrs in N. clear - N. induction l as [|(p & i) l IH]; cbn in *; constructor; inversion N; subst; auto.
  intros H. apply H1. apply in_map_iff in H. destruct H as (e & <- & H). apply in_map_iff. exists e. auto.
Qed.

Lemma known_info : forall main l peak s p, vinv main l peak s -> known l p ->
  exists i v, In (p, i) l /\ lookup l p = Some i /\ vs_mem s (p - hsz) = Some v /\
    v_nel v = i_nel i /\ v_size v = i_size i /\ v_flag v = i_flag i /\ v_data v = i_data i.
Proof.
  intros main l peak s p I K. unfold known in K. apply in_map_iff in K.
  destruct K as ((q & i) & E & H). cbn in E. subst q.
  destruct (vi_ag _ _ _ _ I p i H) as (v & Ev & A).
  exists i, v. repeat split; try tauto. apply lookup_in; auto. eapply live_nodup; eauto.
Qed.

Lemma in_change_flag : forall (l : live) p i i', NoDup (map fst l) -> In (p, i) l -> In (p, i') l -> i = i'.
Proof.
  intros l p i i' N H1 H2. pose proof (lookup_in _ _ _ N H1). pose proof (lookup_in _ _ _ N H2). congruence.
Qed.

(* flags *)
Lemma lor_already : forall x f, Z.land x f = f -> Z.lor x f = x.
Proof.
  intros x f H. rewrite <- H at 1. apply Z.bits_inj'. intros k Hk.
  rewrite Z.lor_spec, Z.land_spec. now destruct (Z.testbit x k), (Z.testbit f k).
Qed.

Lemma land_not32 : forall x f, 0 <= x < 2 ^ 32 -> Z.land x (not32 f) = Z.ldiff x f.
Proof.
  intros x f Hx. apply Z.bits_inj'. intros k Hk. unfold not32.
  rewrite Z.land_spec, Z.ldiff_spec, Z.lxor_spec.
  destruct (Z.ltb_spec k 32).
  - replace (2 ^ 32 - 1) with (Z.ones 32) by reflexivity.
    rewrite Z.ones_spec_low by lia. now destruct (Z.testbit f k).
  - rewrite (Z.bits_above_log2 x k); auto; try lia.
    destruct (Z.eq_dec x 0) as [->|]; [cbn; lia|].
    apply Z.lt_le_trans with 32; [|lia]. apply Z.log2_lt_pow2; lia.
Qed.

Lemma ldiff_already : forall x f, 0 <= f < 2 ^ 32 -> Z.land (not32 x) f = f -> Z.ldiff x f = x.
Proof.
  intros x f Hf H. apply Z.bits_inj'. intros k Hk. rewrite Z.ldiff_spec.
  assert (E : Z.testbit (Z.land (not32 x) f) k = Z.testbit f k) by now rewrite H.
  rewrite Z.land_spec in E. unfold not32 in E. rewrite Z.lxor_spec in E.
  destruct (Z.testbit f k) eqn:Ef; [|now destruct (Z.testbit x k)].
  destruct (Z.ltb_spec k 32).
  - replace (2 ^ 32 - 1) with (Z.ones 32) in E by reflexivity.
    rewrite Z.ones_spec_low in E by lia. now destruct (Z.testbit x k).
  - rewrite (Z.bits_above_log2 f k) in Ef; [easy|lia|].
    destruct (Z.eq_dec f 0) as [->|]; [cbn; lia|].
    apply Z.lt_le_trans with 32; [|lia]. apply Z.log2_lt_pow2; lia.
Qed.

Lemma flag_range : forall x, 0 <= x -> Z.log2 x < 32 -> 0 <= x < 2 ^ 32.
Proof.
  intros x H L. split; auto. destruct (Z.eq_dec x 0) as [->|]; [lia|].
  apply Z.log2_lt_pow2; lia.
Qed.

Lemma range_log2 : forall x, 0 <= x < 2 ^ 32 -> Z.log2 x < 32.
Proof.
  intros x H. destruct (Z.eq_dec x 0) as [->|]; [cbn; lia|]. apply Z.log2_lt_pow2; lia.
Qed.

Lemma lor_range : forall x f, 0 <= x < 2 ^ 32 -> 0 <= f < 2 ^ 32 -> 0 <= Z.lor x f < 2 ^ 32.
Proof.
  intros x f Hx Hf. apply flag_range; [apply Z.lor_nonneg; lia|].
  rewrite Z.log2_lor by lia. pose proof (range_log2 _ Hx). pose proof (range_log2 _ Hf). lia.
Qed.

Lemma ldiff_range : forall x f, 0 <= x < 2 ^ 32 -> 0 <= f -> 0 <= Z.ldiff x f < 2 ^ 32.
Proof.
  intros x f Hx Hf. assert (0 <= Z.ldiff x f) by (apply Z.ldiff_nonneg; lia).
  split; auto. apply Z.le_lt_trans with x; [|lia].
  assert (E : Z.ldiff x f = x - Z.land x f).
  { rewrite Z.sub_nocarry_ldiff.
    - apply Z.bits_inj'. intros k Hk. rewrite !Z.ldiff_spec, Z.land_spec.
      now destruct (Z.testbit x k), (Z.testbit f k).
    - apply Z.bits_inj'. intros k Hk. rewrite Z.ldiff_spec, Z.land_spec, Z.bits_0.
      now destruct (Z.testbit x k), (Z.testbit f k). }
  assert (0 <= Z.land x f) by (apply Z.land_nonneg; lia). lia.
Qed.
