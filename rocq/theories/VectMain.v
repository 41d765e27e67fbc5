From Coq Require Import List Bool ZArith Lia.
From Verif Require Import MemModel VectModel VectSpec VectProofs.
Import ListNotations.
Open Scope Z_scope.

Lemma init_vinv : forall main, main <> 0 ->
  vinv main [] 0 (initialize_main_vect main (vs_start main)).
Proof.
  intros main H. unfold initialize_main_vect, vs_start. cbn [vs_inited vs_mem].
  rewrite Z.eqb_refl.
  split; cbn [vs_inited vs_mem vs_last vs_required vs_max]; auto; try easy.
  - repeat constructor; easy.
  - cbn. rewrite mupd_eq. eexists. repeat split.
  - rewrite mupd_eq. eexists. split; [reflexivity|]. reflexivity.
Qed.

Lemma bytes_drop_le : forall l p, (forall q i, In (q, i) l -> 0 <= i_nel i /\ 0 <= i_size i) ->
  bytes (drop p l) <= bytes l.
Proof.
  induction l as [|(q & i) l IH]; intros p H; [cbn; lia|].
  unfold drop. cbn [filter fst].
  assert (IH' : bytes (drop p l) <= bytes l) by (apply IH; intros; eapply H; now right; eauto).
  assert (0 <= i_nel i * i_size i) by (destruct (H q i); [now left|nia]).
  destruct (negb (q =? p)); unfold bytes, drop in *; cbn [fold_right snd]; lia.
Qed.

Lemma bytes_change : forall l p f, (forall i, i_nel (f i) = i_nel i /\ i_size (f i) = i_size i) ->
  bytes (change p f l) = bytes l.
Proof.
  induction l as [|(q & i) l IH]; intros p f H; auto.
  unfold change, bytes in *. cbn [map fold_right fst snd].
  rewrite IH by auto. destruct (q =? p); cbn [snd]; auto.
  destruct (H i) as [-> ->]. auto.
Qed.

Lemma max_bytes : forall main l peak s, vinv main l peak s -> Z.max peak (bytes l) = peak.
Proof. intros main l peak s I. pose proof (vi_pk _ _ _ _ I). lia. Qed.

Lemma vinv_max : forall main l l' peak s, vinv main l' peak s -> bytes l' <= bytes l ->
  bytes l <= peak -> vinv main l' (Z.max peak (bytes l')) s.
Proof. intros main l l' peak s I H1 H2. replace (Z.max peak (bytes l')) with peak by lia. auto. Qed.

Lemma step_vinv : forall main l peak s o p s',
  vinv main l peak s -> sensible_vop main l o -> vexec main o s = Ok (p, s') ->
  vinv main (live_step l o p) (Z.max peak (bytes (live_step l o p))) s'.
Proof.
  intros main l peak s o p s' I SN EX. destruct o; cbn [vexec live_step] in *.
  - destruct SN as (S1 & S2 & S3).
    pose proof (malloc_inv main l peak s nel size ans junk I S1 S2 S3) as R.
    rewrite EX in R. now destruct R as (_ & _ & R).
  - destruct (free_inv main l peak s ptr I SN) as (s1 & R & I' & _).
    rewrite R in EX. cbn in EX. injection EX as <- <-.
    assert (bytes (drop ptr l) <= bytes l) by (apply bytes_drop_le, (vi_pos _ _ _ _ I)).
    pose proof (vi_pk _ _ _ _ I). apply (vinv_max main l); [exact I'|lia|lia].
  - destruct SN as [KA KB].
    destruct (known_info _ _ _ _ _ I KA) as (i & v & Hi & Li & Ev & A1 & A2 & A3 & A4).
    destruct (known_info _ _ _ _ _ I KB) as (j & w & Hj & Lj & Ew & B1 & B2 & B3 & B4).
    rewrite Lj. set (f := fun k : vinfo => mkI (i_nel k) (i_size k) (i_flag j) (i_data j)).
    assert (EB : bytes (change a f l) = bytes l) by (apply bytes_change; now intros).
    revert EX. unfold vector_copy. destruct (a =? b) eqn:E.
    + cbn. intros EX. injection EX as <- <-. apply Z.eqb_eq in E. subst b.
      rewrite change_id. { rewrite (max_bytes _ _ _ _ I). auto. }
      intros i' Hi'. unfold f.
      rewrite (in_change_flag l a i' j (live_nodup _ _ _ _ I) Hi' Hj). now destruct j.
    + unfold deref, get_vect. fold hsz. rewrite Ev, Ew. cbn [rbind].
      destruct (v_nel v =? v_nel w); [|easy]. destruct (v_size v =? v_size w); [|easy].
      cbn [negb rbind]. intros EX. injection EX as <- <-.
      destruct (content_inv main l peak s a f (v_flag w) (v_data w) I KA) as (v0 & Ev0 & R).
      * rewrite B3. apply (vi_fl _ _ _ _ I b j Hj).
      * intros i0 v0 _ _. unfold f. now rewrite B3, B4.
      * rewrite Ev in Ev0. injection Ev0 as <-. pose proof (vi_pk _ _ _ _ I). apply (vinv_max main l); [exact R|lia|lia].
  - destruct (known_info _ _ _ _ _ I SN) as (i & v & Hi & Li & Ev & A1 & A2 & A3 & A4).
    set (f := fun k : vinfo => mkI (i_nel k) (i_size k) (i_flag k) (repeat 0 (Z.to_nat (i_size k * i_nel k)))).
    assert (EB : bytes (change a f l) = bytes l) by (apply bytes_change; now intros).
    revert EX. unfold vector_reset, deref, get_vect. fold hsz. rewrite Ev. cbn [rbind].
    intros EX. injection EX as <- <-.
    destruct (content_inv main l peak s a f (v_flag v) (repeat 0 (Z.to_nat (v_size v * v_nel v))) I SN) as (v0 & Ev0 & R).
    + rewrite A3. apply (vi_fl _ _ _ _ I a i Hi).
    + intros i0 v0 Hi0 _. rewrite (in_change_flag l a i0 i (live_nodup _ _ _ _ I) Hi0 Hi).
      unfold f. now rewrite A1, A2, A3.
    + rewrite Ev in Ev0. injection Ev0 as <-. pose proof (vi_pk _ _ _ _ I). apply (vinv_max main l); [exact R|lia|lia].
  - destruct SN as [SN HF].
    destruct (known_info _ _ _ _ _ I SN) as (i & v & Hi & Li & Ev & A1 & A2 & A3 & A4).
    set (f := fun k : vinfo => mkI (i_nel k) (i_size k) (Z.lor (i_flag k) flag) (i_data k)).
    assert (EB : bytes (change a f l) = bytes l) by (apply bytes_change; now intros).
    revert EX. unfold set_vect_flag, deref, get_vect. fold hsz. rewrite Ev. cbn [rbind].
    pose proof (vi_fl _ _ _ _ I a i Hi) as FR.
    destruct (Z.land (v_flag v) flag =? flag) eqn:E; cbn [negb rbind]; intros EX; injection EX as <- <-.
    + apply Z.eqb_eq in E. rewrite change_id. { rewrite (max_bytes _ _ _ _ I). auto. }
      intros i' Hi'. rewrite (in_change_flag l a i' i (live_nodup _ _ _ _ I) Hi' Hi). unfold f.
      rewrite <- A3. rewrite lor_already by auto. rewrite A3. now destruct i.
    + destruct (content_inv main l peak s a f (Z.lor (v_flag v) flag) (v_data v) I SN) as (v0 & Ev0 & R).
      * rewrite A3. now apply lor_range.
      * intros i0 v0 Hi0 _. rewrite (in_change_flag l a i0 i (live_nodup _ _ _ _ I) Hi0 Hi).
        unfold f. now rewrite A3, A4.
      * rewrite Ev in Ev0. injection Ev0 as <-. pose proof (vi_pk _ _ _ _ I). apply (vinv_max main l); [exact R|lia|lia].
  - destruct SN as [SN HF].
    destruct (known_info _ _ _ _ _ I SN) as (i & v & Hi & Li & Ev & A1 & A2 & A3 & A4).
    set (f := fun k : vinfo => mkI (i_nel k) (i_size k) (Z.ldiff (i_flag k) flag) (i_data k)).
    assert (EB : bytes (change a f l) = bytes l) by (apply bytes_change; now intros).
    revert EX. unfold unset_vect_flag, deref, get_vect. fold hsz. rewrite Ev. cbn [rbind].
    pose proof (vi_fl _ _ _ _ I a i Hi) as FR.
    destruct (Z.land (not32 (v_flag v)) flag =? flag) eqn:E; cbn [negb rbind]; intros EX; injection EX as <- <-.
    + apply Z.eqb_eq in E. rewrite change_id. { rewrite (max_bytes _ _ _ _ I). auto. }
      intros i' Hi'. rewrite (in_change_flag l a i' i (live_nodup _ _ _ _ I) Hi' Hi). unfold f.
      rewrite <- A3. rewrite ldiff_already by auto. rewrite A3. now destruct i.
    + destruct (content_inv main l peak s a f (Z.land (v_flag v) (not32 flag)) (v_data v) I SN) as (v0 & Ev0 & R).
      * rewrite A3, land_not32 by auto. apply ldiff_range; lia.
      * intros i0 v0 Hi0 _. rewrite (in_change_flag l a i0 i (live_nodup _ _ _ _ I) Hi0 Hi).
        unfold f. rewrite A3, A4, land_not32 by auto. reflexivity.
      * rewrite Ev in Ev0. injection Ev0 as <-. pose proof (vi_pk _ _ _ _ I). apply (vinv_max main l); [exact R|lia|lia].
Qed.

Lemma vhist_vinv : forall main os l peak s, main <> 0 -> vhist main os l peak s ->
  vinv main l peak s.
Proof.
  intros main os l peak s HM H. induction H.
  - now apply init_vinv.
  - eapply step_vinv; eauto.
Qed.

Lemma usage_walk : forall m l prev fuel tot, dll m prev l 0 -> ~ In 0 (tl l) ->
  (List.length l < fuel)%nat -> l <> [] ->
  usage_loop fuel m (hd 0 l) tot =
  Ok (Some (tot + fold_right (fun a s => (match m a with Some v => v_nel v * v_size v | None => 0 end) + s) 0 l)).
Proof.
  induction l as [|a l IH]; intros prev fuel tot D NZ F NE; [easy|].
  destruct fuel as [|fuel]; [cbn in F; lia|].
  destruct D as (v & E & P & N & D). cbn [hd tl] in *. cbn [usage_loop fold_right].
  unfold deref. rewrite E. cbn [rbind]. rewrite N.
  destruct l as [|b l].
  - cbn. do 2 f_equal. lia.
  - cbn [hd]. assert (b <> 0) by (intros ->; apply NZ; now left).
    replace (b =? 0) with false by (symmetry; now apply Z.eqb_neq).
    change b with (hd 0 (b :: l)) at 1. rewrite (IH a); auto; try easy.
    + do 2 f_equal. lia.
    + cbn in *. tauto.
    + cbn in *. lia.
Qed.

Lemma print_walk : forall m l prev fuel acc, dll m prev l 0 -> ~ In 0 (tl l) ->
  (List.length l < fuel)%nat -> l <> [] ->
  print_loop fuel m (hd 0 l) acc = Ok (Some (acc ++ l)).
Proof.
  induction l as [|a l IH]; intros prev fuel acc D NZ F NE; [easy|].
  destruct fuel as [|fuel]; [cbn in F; lia|].
  destruct D as (v & E & P & N & D). cbn [hd tl] in *. cbn [print_loop].
  unfold deref. rewrite E. cbn [rbind]. rewrite N.
  destruct l as [|b l]; [reflexivity|].
  cbn [hd]. assert (b <> 0) by (intros ->; apply NZ; now left).
  replace (b =? 0) with false by (symmetry; now apply Z.eqb_neq).
  change b with (hd 0 (b :: l)) at 1. rewrite (IH a); auto; try easy.
  - now rewrite <- app_assoc.
  - cbn in *. tauto.
  - cbn in *. lia.
Qed.

(* what the registry shows after any history *)
Lemma registry : forall main os l peak s, main <> 0 -> vhist main os l peak s ->
  (forall fuel, (List.length l + 1 < fuel)%nat ->
     print_all_vect_content main fuel s = Ok (Some (main :: map (fun e => fst e - nissa_vect_sizeof) l)) /\
     compute_vect_memory_usage main fuel s = Ok (Some (bytes l))) /\
  vs_required s = bytes l /\ vs_max s = peak /\
  vs_last s = last (map (fun e => fst e - nissa_vect_sizeof) l) main /\
  (forall p i, In (p, i) l ->
     exists v, vs_mem s (p - nissa_vect_sizeof) = Some v /\
       v_nel v = i_nel i /\ v_size v = i_size i /\ v_flag v = i_flag i /\ v_data v = i_data i).
Proof.
  intros main os l peak s HM H. pose proof (vhist_vinv _ _ _ _ _ HM H) as I.
  pose proof I as [II (NZ1 & NZ2) ND DL LA AG MA RQ MX PK PO FL].
  split; [|repeat split; auto].
  intros fuel F. split.
  - unfold print_all_vect_content. change main with (hd 0 (main :: addrs l)) at 1.
    rewrite (print_walk _ _ 0); auto; try easy. unfold addrs. cbn. rewrite map_length. lia.
  - unfold compute_vect_memory_usage. change main with (hd 0 (main :: addrs l)) at 1.
    rewrite (usage_walk _ _ 0); auto; try easy.
    2:{ unfold addrs. cbn. rewrite map_length. lia. }
    do 2 f_equal. cbn [fold_right]. destruct MA as (v & -> & ->). 
    clear - AG. change (0 + (0 + ?x)) with x.
    induction l as [|(p & i) l IH]; auto.
    cbn [addrs map fold_right fst bytes snd]. destruct (AG p i) as (v & -> & -> & -> & _); [now left|].
    unfold bytes in *. rewrite <- IH; [reflexivity|]. intros q j Hq. apply AG. now right.
Qed.

Lemma vops_safe : forall main os l peak s o, main <> 0 -> vhist main os l peak s ->
  sensible_vop main l o ->
  match vexec main o s with
  | Ok (p, _) => match o with VMalloc _ _ ans _ => ans = Some (p - nissa_vect_sizeof) /\ p mod 16 = 0 | _ => True end
  | Crash =>
      match o with
      | VMalloc _ _ ans _ => match ans with Some a => a mod 16 <> 0 | None => True end
      | VCopy a b => exists i j, lookup l a = Some i /\ lookup l b = Some j /\
                                 (i_nel i <> i_nel j \/ i_size i <> i_size j)
      | _ => False
      end
  | Undef => False
  end.
Proof.
  intros main os l peak s o HM H SN. pose proof (vhist_vinv _ _ _ _ _ HM H) as I.
  destruct o; cbn [vexec] in *.
  - destruct SN as (S1 & S2 & S3).
    pose proof (malloc_inv main l peak s nel size ans junk I S1 S2 S3) as R.
    destruct (internal_nissa_malloc main nel size ans junk s) as [(p & s')| |]; auto.
    destruct R as (R1 & R2 & _). auto.
  - destruct (free_inv main l peak s ptr I SN) as (s1 & R & I' & _). now rewrite R.
  - destruct SN as [KA KB].
    destruct (known_info _ _ _ _ _ I KA) as (i & v & Hi & Li & Ev & A1 & A2 & A3 & A4).
    destruct (known_info _ _ _ _ _ I KB) as (j & w & Hj & Lj & Ew & B1 & B2 & B3 & B4).
    unfold vector_copy, deref, get_vect. fold hsz. destruct (a =? b); [now cbn|].
    rewrite Ev, Ew. cbn [rbind].
    destruct (v_nel v =? v_nel w) eqn:E1; cbn [negb].
    + destruct (v_size v =? v_size w) eqn:E2; cbn; auto.
      apply Z.eqb_neq in E2. exists i, j. repeat split; auto. right. congruence.
    + apply Z.eqb_neq in E1. cbn. exists i, j. repeat split; auto. left. congruence.
  - destruct (known_info _ _ _ _ _ I SN) as (i & v & Hi & Li & Ev & A1 & A2 & A3 & A4).
    unfold vector_reset, deref, get_vect. fold hsz. rewrite Ev. now cbn.
  - destruct SN as [SN HF].
    destruct (known_info _ _ _ _ _ I SN) as (i & v & Hi & Li & Ev & A1 & A2 & A3 & A4).
    unfold set_vect_flag, deref, get_vect. fold hsz. rewrite Ev. cbn [rbind].
    now destruct (negb _).
  - destruct SN as [SN HF].
    destruct (known_info _ _ _ _ _ I SN) as (i & v & Hi & Li & Ev & A1 & A2 & A3 & A4).
    unfold unset_vect_flag, deref, get_vect. fold hsz. rewrite Ev. cbn [rbind].
    now destruct (negb _).
Qed.

Lemma flag_read : forall main os l peak s p f i, main <> 0 -> vhist main os l peak s ->
  In (p, i) l -> get_vect_flag p f s = Ok (Z.land (i_flag i) f).
Proof.
  intros main os l peak s p f i HM H Hi. pose proof (vhist_vinv _ _ _ _ _ HM H) as I.
  destruct (vi_ag _ _ _ _ I p i Hi) as (v & Ev & A1 & A2 & A3 & A4).
  unfold get_vect_flag, deref, get_vect. fold hsz. rewrite Ev. cbn. now rewrite A3.
Qed.

(* duplicating: a new vector with the same content *)
Lemma duplicate_ok : forall main os l peak s v i ans junk p s', main <> 0 -> vhist main os l peak s ->
  In (v, i) l ->
  (match ans with
   | Some a => a <> 0 /\ a <> main /\ ~ known l (a + nissa_vect_sizeof)
   | None => True end) ->
  internal_vector_duplicate main v ans junk s = Ok (p, s') ->
  exists os' peak', vhist main os' (l ++ [(p, i)]) peak' s'.
Proof.
  intros main os l peak s v i ans junk p s' HM H Hi HA EX.
  pose proof (vhist_vinv _ _ _ _ _ HM H) as I.
  destruct (vi_ag _ _ _ _ I v i Hi) as (h & Ev & A1 & A2 & A3 & A4).
  revert EX. unfold internal_vector_duplicate, deref, get_vect. fold hsz. rewrite Ev. cbn [rbind].
  destruct (internal_nissa_malloc main (v_nel h) (v_size h) ans junk s) as [(p1 & s1)| |] eqn:M; try easy.
  cbn [rbind]. destruct (vector_copy p1 v s1) as [s2| |] eqn:C; try easy. cbn.
  intros EX. injection EX as <- <-.
  destruct (vi_pos _ _ _ _ I v i Hi) as [P1 P2].
  assert (SN : sensible_vop main l (VMalloc (v_nel h) (v_size h) ans junk)).
  { cbn. rewrite A1, A2. auto. }
  pose proof (vhist_cons main os l peak s (VMalloc (v_nel h) (v_size h) ans junk) p1 s1 H SN M) as H1.
  cbn [live_step] in H1. set (l1 := l ++ [(p1, mkI (v_nel h) (v_size h) 0 junk)]) in *.
  assert (C' : vexec main (VCopy p1 v) s1 = Ok (0, s2)) by (cbn; now rewrite C).
  assert (SN2 : sensible_vop main l1 (VCopy p1 v)).
  { cbn. unfold known, l1. rewrite map_app, !in_app_iff. cbn. split; [auto|left].
    now apply (in_map fst) in Hi. }
  pose proof (vhist_cons main _ l1 _ s1 (VCopy p1 v) 0 s2 H1 SN2 C') as H2.
  pose proof (vhist_vinv _ _ _ _ _ HM H1) as I1.
  assert (LK : lookup l1 v = Some i).
  { apply lookup_in; [eapply live_nodup; exact I1|]. unfold l1. apply in_app_iff. auto. }
  cbn [live_step] in H2. rewrite LK in H2.
  assert (NP : ~ In p1 (map fst l)).
  { pose proof (live_nodup _ _ _ _ I1) as N. unfold l1 in N. rewrite map_app in N. cbn in N.
    apply NoDup_remove_2 in N. now rewrite app_nil_r in N. }
  set (f := fun j : vinfo => mkI (i_nel j) (i_size j) (i_flag i) (i_data i)) in *.
  assert (EL : change p1 f l1 = l ++ [(p1, i)]).
  { unfold l1. rewrite change_split by (auto; easy). unfold f. cbn. rewrite A1, A2. now destruct i. }
  rewrite EL in H2. eauto.
Qed.

(* the list is initialised by the first call if needed *)
Lemma lazy_init : forall main nel size ans junk,
  internal_nissa_malloc main nel size ans junk (vs_start main) =
  internal_nissa_malloc main nel size ans junk (initialize_main_vect main (vs_start main)).
Proof. reflexivity. Qed.
