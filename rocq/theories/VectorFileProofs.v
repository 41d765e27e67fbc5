From Verif Require Import Base GeometryModel GeometrySpec GeometryProofs OwnerProofs AllToAllModel IldgModel IldgProofs RemapMain
  ParProofs BytesModel BytesSpec BytesProofs IldgFileModel IldgFileSpec IldgFileProofs VectorFileModel VectorFileSpec.
From Coq Require Import Permutation.

Lemma nth_skip {A} (l : list A) k j d : nth j (skipn k l) d = nth (k + j) l d.
Proof. revert l. induction k as [|k IH]; intros l; [reflexivity|]. destruct l as [|x l]; cbn [skipn plus nth]; [now destruct j|]. apply IH. Qed.
Lemma nth_first {A} (l : list A) k j d : nth j (firstn k l) d = if (j <? k)%nat then nth j l d else d.
Proof.
  revert l j. induction k as [|k IH]; intros l j; [cbn; now destruct j|].
  destruct l as [|x l]; cbn [firstn]; [now destruct (j <? S k)%nat; destruct j|].
  destruct j as [|j]; cbn [nth]; [reflexivity|]. rewrite IH. reflexivity.
Qed.

Section Flat.
Context {A : Type} (f : Z -> list A) (b n : Z).
Hypothesis Hf : forall i, 0 <= i < n -> Z.of_nat (length (f i)) = b.
Lemma flat_len k : 0 <= k <= n -> Z.of_nat (length (flat_map f (seqZ k))) = k * b.
Proof.
  intros [Hk Hn]. revert k Hk Hn. apply (natlike_ind (fun k => k <= n -> Z.of_nat (length (flat_map f (seqZ k))) = k * b)); [cbn; lia|].
  intros x Hx IH Hn. replace (Z.succ x) with (x + 1) by lia. rewrite seqZ_succ by lia.
  rewrite flat_map_app, app_length. cbn [flat_map]. rewrite app_nil_r. pose proof (Hf x). lia.
Qed.
Lemma flat_split k : 0 <= k < n -> flat_map f (seqZ n) = flat_map f (seqZ k) ++ f k ++ flat_map f (map (fun t => k + 1 + t) (seqZ (n - k - 1))).
Proof.
  intros Hk. replace n with (k + 1 + (n - k - 1)) at 1 by lia. rewrite seqZ_app, seqZ_succ by lia.
  rewrite !flat_map_app. cbn [flat_map]. rewrite app_nil_r, <- app_assoc. reflexivity.
Qed.
Lemma sub_flat k l l' : 0 <= k < n -> 
  firstn (Z.to_nat b) (skipn (length l + Z.to_nat (k * b)) (l ++ flat_map f (seqZ n) ++ l')) = f k.
Proof.
  intros Hk. rewrite (flat_split k Hk). pose proof (flat_len k). pose proof (Hf k Hk).
  replace (Z.to_nat b) with (length (f k)) by lia.
  replace (length l + Z.to_nat (k * b))%nat with (length (l ++ flat_map f (seqZ k))) by (rewrite app_length; lia).
  rewrite <- !app_assoc, app_assoc. apply firstn_mid.
Qed.
End Flat.
Lemma cut_flat (f : Z -> list Z) b n k : (forall i, 0 <= i < n -> Z.of_nat (length (f i)) = b) -> 0 <= k < n -> cut b (flat_map f (seqZ n)) k = f k.
Proof. intros Hf Hk. pose proof (sub_flat f b n Hf k [] [] Hk) as E. cbn [app length plus] in E. rewrite app_nil_r in E. exact E. Qed.
Lemma nth_flat (f : Z -> list Z) b n j : 0 < b -> (forall i, 0 <= i < n -> Z.of_nat (length (f i)) = b) -> 0 <= j < n * b ->
  nth (Z.to_nat j) (flat_map f (seqZ n)) 0 = nth (Z.to_nat (j mod b)) (f (j / b)) 0.
Proof.
  intros Hb Hf Hj. assert (Hk : 0 <= j / b < n) by (split; [apply Z.div_pos; lia|apply Z.div_lt_upper_bound; lia]).
  pose proof (Z.mod_pos_bound j b Hb). pose proof (Z.div_mod j b).
  rewrite <- (cut_flat f b n (j / b) Hf Hk). unfold cut, sub_bytes. rewrite nth_first, nth_skip.
  replace (Z.to_nat (j mod b) <? Z.to_nat b)%nat with true by (symmetry; apply Nat.ltb_lt; lia).
  f_equal. nia.
Qed.
Lemma flat_two (f : Z -> list Z) N n : 0 <= N -> 0 <= n ->
  flat_map f (seqZ (N * n)) = flat_map (fun r => flat_map (fun j => f (r * n + j)) (seqZ n)) (seqZ N).
Proof.
  intros HN Hn. revert N HN. apply natlike_ind; [reflexivity|]. intros N HN IH.
  replace (Z.succ N) with (N + 1) by lia. rewrite seqZ_succ by lia. replace ((N + 1) * n) with (N * n + n) by ring.
  rewrite seqZ_app by nia. rewrite !flat_map_app, IH. cbn [flat_map]. rewrite app_nil_r. f_equal.
  rewrite flat_map_concat_map, map_map, <- flat_map_concat_map. reflexivity.
Qed.

(** writes at any place *)
Lemma put_nth c p d j : nth j (put_bytes c p d) 0 = if (p <=? j)%nat && (j <? p + length d)%nat then nth (j - p) d 0 else nth j c 0.
Proof.
  unfold put_bytes. set (a := firstn p (c ++ repeat 0 (p - length c))).
  assert (La : length a = p) by (unfold a; rewrite firstn_length, app_length, repeat_length; lia).
  destruct (Nat.leb_spec p j) as [H|H]; cbn [andb].
  - rewrite (app_nth2 a) by lia. rewrite La. destruct (Nat.ltb_spec j (p + length d)) as [H1|H1].
    + apply app_nth1. lia.
    + rewrite app_nth2 by lia. rewrite nth_skip. f_equal. lia.
  - rewrite app_nth1 by lia. unfold a. rewrite nth_first. replace (j <? p)%nat with true by (symmetry; apply Nat.ltb_lt; lia).
    destruct (Nat.lt_ge_cases j (length c)) as [H1|H1]; [now rewrite app_nth1|].
    rewrite app_nth2 by lia. rewrite (nth_overflow c) by lia. apply nth_repeat.
Qed.
Lemma put_len c p d : length (put_bytes c p d) = Nat.max (length c) (p + length d).
Proof. unfold put_bytes. rewrite !app_length, firstn_length, app_length, repeat_length, skipn_length. lia. Qed.

Section Writes.
Variables (c1 : list Z) (chunk : Z -> list Z) (nb N : Z).
Hypotheses (Hnb : 0 < nb) (HN : 0 < N) (Hc : forall r, 0 <= r < N -> Z.of_nat (length (chunk r)) = nb).
Let ori := Z.of_nat (length c1).
Let step (f : file) (r : Z) : file := fwrite (mkFile (content f) (ori + r * nb)) (chunk r).
Let in_ord (j : Z) (l : list Z) : bool := (ori <=? j) && existsb (Z.eqb ((j - ori) / nb)) l.
Lemma writes_nth l : forall f, Forall (fun r => 0 <= r < N) l -> forall j, 0 <= j ->
  nth (Z.to_nat j) (content (fold_left step l f)) 0 =
  if in_ord j l then nth (Z.to_nat ((j - ori) mod nb)) (chunk ((j - ori) / nb)) 0 else nth (Z.to_nat j) (content f) 0.
Proof.
  induction l as [|r l IH]; intros f Hl j Hj; cbn [fold_left].
  - unfold in_ord. cbn [existsb]. now rewrite andb_false_r.
  - inversion Hl as [|? ? Hr Hl']; subst. rewrite IH by auto. unfold in_ord. cbn [existsb].
    destruct (Z.leb_spec ori j) as [H|H]; cbn [andb].
    + destruct (existsb (Z.eqb ((j - ori) / nb)) l); [now rewrite orb_true_r|]. rewrite orb_false_r.
      unfold step, fwrite. cbn [content pos]. rewrite put_nth. pose proof (Hc r Hr).
      pose proof (Z.div_mod (j - ori) nb). pose proof (Z.mod_pos_bound (j - ori) nb Hnb).
      assert (Hp : 0 <= ori + r * nb) by (unfold ori; nia).
      destruct (Z.eqb_spec ((j - ori) / nb) r) as [E|E].
      * subst r. replace ((Z.to_nat (ori + (j - ori) / nb * nb) <=? Z.to_nat j)%nat && (Z.to_nat j <? Z.to_nat (ori + (j - ori) / nb * nb) + length (chunk ((j - ori) / nb)))%nat) with true.
        { f_equal. nia. }
        symmetry. apply andb_true_intro. split; [apply Nat.leb_le|apply Nat.ltb_lt]; nia.
      * replace ((Z.to_nat (ori + r * nb) <=? Z.to_nat j)%nat && (Z.to_nat j <? Z.to_nat (ori + r * nb) + length (chunk r))%nat) with false; [reflexivity|].
        symmetry. apply andb_false_iff. destruct (Z.lt_ge_cases ((j - ori) / nb) r) as [H3|H3]; [left; apply Nat.leb_gt; nia|right; apply Nat.ltb_ge; nia].
    + unfold step, fwrite. cbn [content pos]. rewrite put_nth.
      replace ((Z.to_nat (ori + r * nb) <=? Z.to_nat j)%nat) with false; [reflexivity|]. symmetry. apply Nat.leb_gt. nia.
Qed.
Lemma writes_len l : forall f, Forall (fun r => 0 <= r < N) l ->
  ori <= fsize f <= ori + N * nb -> ori <= fsize (fold_left step l f) <= ori + N * nb /\
  (forall r, In r l -> ori + (r + 1) * nb <= fsize (fold_left step l f)) /\ fsize f <= fsize (fold_left step l f).
Proof.
  induction l as [|r l IH]; intros f Hl Hf; cbn [fold_left]; [split; auto; split; [intros r []|lia]|].
  inversion Hl as [|? ? Hr Hl']; subst. pose proof (Hc r Hr).
  assert (E : fsize (step f r) = Z.max (fsize f) (ori + (r + 1) * nb)).
  { unfold step, fwrite, fsize. cbn [content pos]. rewrite put_len. unfold ori. nia. }
  destruct (IH (step f r) Hl') as (I1 & I2 & I3); [rewrite E; nia|]. split; [auto|]. split; [|lia].
  intros r' [<-|H']; [lia|auto].
Qed.
Lemma writes_main order : Permutation order (seqZ N) -> forall f, content f = c1 ->
  content (fold_left step order f) = c1 ++ flat_map chunk (seqZ N).
Proof.
  intros HP f Hf. assert (HF : Forall (fun r => 0 <= r < N) order).
  { apply Forall_forall. intros r Hr. apply in_seqZ. now apply (Permutation_in _ HP). }
  assert (Hs : fsize f = ori) by (unfold fsize, ori; now rewrite Hf).
  destruct (writes_len order f HF) as (L1 & L2 & _); [rewrite Hs; nia|].
  specialize (L2 (N - 1)). assert (Hin : In (N - 1) order) by (apply (Permutation_in _ (Permutation_sym HP)); apply in_seqZ; lia).
  specialize (L2 Hin). assert (EL : fsize (fold_left step order f) = ori + N * nb) by nia.
  pose proof (flat_len chunk nb N Hc N) as FL. 
  apply nth_ext with (d := 0) (d' := 0); [rewrite app_length; unfold fsize, ori in *; lia|].
  intros m Hm. unfold fsize in EL. replace m with (Z.to_nat (Z.of_nat m)) by lia. rewrite writes_nth by (auto; lia).
  unfold in_ord. destruct (Z.leb_spec ori (Z.of_nat m)) as [H|H]; cbn [andb].
  - assert (Hk : 0 <= (Z.of_nat m - ori) / nb < N) by (split; [apply Z.div_pos; lia|apply Z.div_lt_upper_bound; lia]).
    replace (existsb (Z.eqb ((Z.of_nat m - ori) / nb)) order) with true.
    2:{ symmetry. apply existsb_exists. exists ((Z.of_nat m - ori) / nb). split; [|apply Z.eqb_refl].
        apply (Permutation_in _ (Permutation_sym HP)). now apply in_seqZ. }
    rewrite app_nth2 by (unfold ori in *; lia). 
    replace (Z.to_nat (Z.of_nat m) - length c1)%nat with (Z.to_nat (Z.of_nat m - ori)) by (unfold ori; lia).
    rewrite (nth_flat chunk nb N) by (auto; lia). reflexivity.
  - rewrite Hf, app_nth1 by (unfold ori in *; lia). reflexivity.
Qed.
End Writes.
