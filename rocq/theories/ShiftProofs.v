From Coq Require Import Permutation.
From Verif Require Import Base GeometryModel GeometrySpec GeometryProofs OwnerProofs FullLxProofs FullLxMain LabelProofs NeighProofs HaloModel HaloProofs ShiftModel.
Open Scope Z_scope.

Lemma put_eq {A} (u : table A) i v : put u i v i = v.
Proof. unfold put. now rewrite Z.eqb_refl. Qed.
Lemma put_neq {A} (u : table A) i v j : j <> i -> put u i v j = u j.
Proof. intros H. unfold put. destruct (Z.eqb_spec j i); congruence. Qed.

Section G.
Context (g : grid) (Hv : valid_grid g = true) (rc : list Z) (Hrc : in_box rc (nRanksDir g)).
Context (mu : nat) (Hmu : (mu < 4)%nat) (up : bool).
Let t := label_all_sites g rc.
Let n := (locSize g).[mu].
Let sh := dsgn up.
Let st := if up then 0 else n - 1.
Let en := if up then n - 1 else 0.

Context (y : list Z) (Hy : in_box y (locSize g)).
Definition line_site (k : Z) : Z := fullLxOfCoords g (upd y mu (st + sh * k)).

Lemma ls_len : length (locSize g) = 4%nat.
Proof. unfold locSize. rewrite map2_length; [apply glb_len; exact Hv|]. rewrite (glb_len g Hv), (nr_len g Hv). reflexivity. Qed.
Lemma y_len : length y = 4%nat.
Proof. rewrite (in_box_length _ _ Hy). apply ls_len. Qed.
Lemma n_ge2 : 2 <= n.
Proof. now destruct (dir_facts g Hv mu Hmu). Qed.
Lemma y_nth nu : (nu < 4)%nat -> 0 <= y.[nu] < (locSize g).[nu].
Proof. intros H. apply (proj2 (proj1 (in_box_nth _ _) Hy)). rewrite ls_len; exact H. Qed.

Lemma line_box k : 0 <= k < n -> in_box (upd y mu (st + sh * k)) (locSize g).
Proof.
  intros Hk. apply in_box_upd; auto. fold n. unfold st, sh, dsgn. destruct up; lia.
Qed.
Lemma box_ext z : in_box z (locSize g) -> ext_site g z /\ n_out g z = 0%nat.
Proof.
  clear -Hv. intros Hz. assert (L : length z = 4%nat) by (rewrite (in_box_length _ _ Hz); apply ls_len).
  assert (N : forall nu, (nu < 4)%nat -> 0 <= z.[nu] < (locSize g).[nu]) by (intros nu Hnu; apply (proj2 (proj1 (in_box_nth _ _) Hz)); rewrite ls_len; exact Hnu).
  split; [split; auto|].
  - intros nu Hnu. specialize (N nu Hnu). destruct (1 <? _); lia.
  - apply n_out_0; assumption.
Qed.
Lemma box_lx z : in_box z (locSize g) -> fullLxOfCoords g z = loclxOfCoord g z.
Proof.
  clear -Hv. intros Hz. assert (L : length z = 4%nat) by (rewrite (in_box_length _ _ Hz); apply ls_len).
  assert (N : forall nu, (nu < 4)%nat -> 0 <= z.[nu] < (locSize g).[nu]) by (intros nu Hnu; apply (proj2 (proj1 (in_box_nth _ _) Hz)); rewrite ls_len; exact Hnu).
  assert (E : map2 Z.modulo z (glbSize g) = z).
  { apply list4_ext; [rewrite map2_length; auto; rewrite (glb_len g Hv); auto|auto|].
    intros nu Hnu. rewrite nth_map2 by (auto; apply (glb_len g Hv)). specialize (N nu Hnu).
    destruct (dir_facts g Hv nu Hnu) as (A & B & C). apply Z.mod_small. rewrite C. nia. }
  unfold fullLxOfCoords. cbv zeta. rewrite E.
  replace (forallb _ dirs) with true; auto. symmetry. apply forallb_forall. intros nu Hnu.
  assert (nu < 4)%nat by (cbn in Hnu; lia). specialize (N nu H). lia.
Qed.

Lemma line_neigh k : 0 <= k < n -> loclxNeigh g rc t up (line_site k) mu = Some (line_site (k + 1)).
Proof.
  intros Hk. destruct (box_ext _ (line_box k Hk)) as [E N]. unfold line_site, t. rewrite neigh_eq; auto; [|lia].
  f_equal. f_equal. unfold move. rewrite nth_upd_eq by (rewrite y_len; auto). rewrite upd_upd. f_equal. fold sh. ring.
Qed.
Lemma line_local k : 0 <= k < n -> 0 <= line_site k < locVol g.
Proof.
  intros Hk. destruct (box_ext _ (line_box k Hk)) as [E N].
  destruct (fullLx_region g Hv _ E ltac:(lia)) as [R|[R|R]]; unfold line_site; lia.
Qed.
Lemma line_inj k l : 0 <= k < n -> 0 <= l < n -> line_site k = line_site l -> k = l.
Proof.
  intros Hk Hl H. destruct (box_ext _ (line_box k Hk)) as [E N]. destruct (box_ext _ (line_box l Hl)) as [E2 N2].
  unfold line_site in H. apply (fullLx_inj g Hv) in H; auto; try lia.
  assert (X : (upd y mu (st + sh * k)).[mu] = (upd y mu (st + sh * l)).[mu]) by now rewrite H.
  rewrite !nth_upd_eq in X by (rewrite y_len; auto). unfold sh, dsgn in X. destruct up; lia.
Qed.
Lemma line_end : (if (nRanksDir g).[mu] =? 1 then line_site n = line_site 0 else locVol g <= line_site n < locVol g + bordVol g).
Proof.
  pose proof n_ge2 as N2. destruct (dir_facts g Hv mu Hmu) as (_ & P & G). fold n in G.
  destruct (Z.eqb_spec (nRanksDir g).[mu] 1) as [E|E].
  - unfold line_site. apply fullLx_periodic; auto. apply mod_upd; auto; [apply y_len|]. rewrite G, E. unfold st, sh, dsgn.
    destruct up.
    + replace (0 + 1 * n) with (0 + 1 * (1 * n)) by ring. rewrite Z.mod_add by lia. f_equal.
    + replace (n - 1 + -1 * 0) with (n - 1 + -1 * n + 1 * (1 * n)) by ring. now rewrite Z.mod_add by lia.
  - assert (X : ext_site g (upd y mu (st + sh * n))).
    { apply ext_upd; auto; [apply box_ext; auto|]. replace (1 <? (nRanksDir g).[mu]) with true by lia. fold n. unfold st, sh, dsgn. destruct up; lia. }
    assert (L : (n_out g (upd y mu (st + sh * n)) <= 1)%nat).
    { pose proof (n_out_upd_le g Hv y mu (st + sh * n) y_len Hmu). destruct (box_ext y Hy) as [_ E0]. lia. }
    destruct (fullLx_region g Hv _ X ltac:(lia)) as [[R _]|[R|R]]; unfold line_site; try lia.
    exfalso. apply (proj1 (n_out_0 g Hv _)) with (mu := mu) in R; auto. rewrite nth_upd_eq in R by (rewrite y_len; auto).
    fold n in R. unfold st, sh, dsgn in R. destruct up; lia.
Qed.

(* the loop, from the j-th site on *)
Lemma line_loop_ok {A} (u : table A) : forall fuel j v, 0 <= j -> Z.of_nat fuel = n - j -> (0 < fuel)%nat ->
  (forall k, 0 <= k < j -> v (line_site k) = u (line_site (k + 1))) ->
  (forall i, (forall k, 0 <= k < j -> i <> line_site k) -> v i = u i) ->
  exists w, line_loop fuel g rc t mu up sh en (st + sh * j) (line_site j) v = Some (w, line_site (n - 1)) /\
    (forall k, 0 <= k < n - 1 -> w (line_site k) = u (line_site (k + 1))) /\
    ((forall k, 0 <= k < n - 1 -> line_site n <> line_site k) -> w (line_site (n - 1)) = u (line_site n)) /\
    (forall i, (forall k, 0 <= k < n -> i <> line_site k) -> w i = u i).
Proof.
  induction fuel as [|f IH]; intros j v Hj F Pf V1 V2; [lia|]. cbn [line_loop].
  rewrite line_neigh by lia.
  assert (E : st + sh * j + sh = st + sh * (j + 1)) by ring. rewrite E.
  assert (Q : (st + sh * (j + 1) =? en + sh) = (j + 1 =? n)).
  { apply eq_true_iff_eq. rewrite !Z.eqb_eq. unfold st, en, sh, dsgn. case up; lia. }
  rewrite Q. destruct (Z.eqb_spec (j + 1) n) as [J|J]; cbn [negb].
  - eexists. replace (n - 1) with j by lia. split; [reflexivity|]. split; [|split].
    + intros k Hk. rewrite put_neq; [apply V1; lia|]. intros H. apply line_inj in H; lia.
    + intros H. rewrite put_eq. rewrite J. apply V2. intros k Hk. apply H. lia.
    + intros i H. rewrite put_neq; [apply V2; intros; apply H; lia|]. apply H. lia.
  - apply IH; try lia.
    + intros k Hk. destruct (Z.eq_dec k j) as [->|N].
      * rewrite put_eq. apply V2. intros k K H. apply line_inj in H; lia.
      * rewrite put_neq; [apply V1; lia|]. intros H. apply line_inj in H; lia.
    + intros i H. rewrite put_neq; [apply V2; intros; apply H; lia|]. apply H. lia.
Qed.

Lemma line_all {A} (u : table A) : exists w, 
  match line_loop (Z.to_nat n) g rc t mu up sh en st (line_site 0) u with
  | None => None
  | Some (w, isite) => if (nRanksDir g).[mu] =? 1 then Some (put w isite (u (line_site 0))) else Some w
  end = Some w /\
  (forall k, 0 <= k < n -> w (line_site k) = u (line_site (k + 1))) /\
  (forall i, (forall k, 0 <= k < n -> i <> line_site k) -> w i = u i).
Proof.
  pose proof n_ge2 as N2. destruct (line_loop_ok u (Z.to_nat n) 0 u) as (w & E & W1 & W2 & W3); try lia; auto.
  replace (st + sh * 0) with st in E by ring. rewrite E. pose proof line_end as LE.
  destruct ((nRanksDir g).[mu] =? 1).
  - eexists. split; [reflexivity|]. split.
    + intros k Hk. destruct (Z.eq_dec k (n - 1)) as [->|N].
      * rewrite put_eq. replace (n - 1 + 1) with n by ring. now rewrite LE.
      * rewrite put_neq; [apply W1; lia|]. intros H. apply line_inj in H; lia.
    + intros i H. rewrite put_neq; [now apply W3|]. apply H. lia.
  - exists w. split; auto. split; auto. intros k Hk. destruct (Z.eq_dec k (n - 1)) as [->|N]; [|apply W1; lia].
    rewrite W2; [f_equal; f_equal; ring|]. intros k K H. pose proof (line_local k ltac:(lia)). lia.
Qed.
End G.
