(** All-to-all communicator: exchange of messages and of the explanations. *)
From Verif Require Import Base GeometryModel HaloModel HaloProofs AllToAllModel AllToAllProofs.

Definition mk (N : Z) (t : Z -> Z) : side :=
  mkSide (ranks_of N t) (map t (ranks_of N t)) (offsets 0 (map t (ranks_of N t))) (sum_to N t).

Lemma mk_ext N t t' : (forall q, 0 <= q < N -> t q = t' q) -> mk N t = mk N t'.
Proof.
  intros H. unfold mk. rewrite (ranks_of_ext N t t' H).
  assert (E : map t (ranks_of N t') = map t' (ranks_of N t')).
  { apply map_ext_in. intros q Hq. apply H. apply filter_In in Hq as [Hq _]. now apply in_seqZ. }
  rewrite E. f_equal. unfold sum_to.
  assert (G : forall L a, (forall q, In q L -> t q = t' q) -> fold_left (fun s q => s + t q) L a = fold_left (fun s q => s + t' q) L a).
  { induction L as [|x L IH]; intros a HL; [reflexivity|]. cbn [fold_left]. rewrite (HL x (or_introl eq_refl)). apply IH. intros; apply HL; now right. }
  apply G. intros q Hq. apply H. now apply in_seqZ.
Qed.

Lemma part1_spec N nto nfr : (ranks_of N nto = [] -> ranks_of N nfr = []) -> part1 N nto nfr = (mk N nto, mk N nfr).
Proof.
  intros H. unfold part1. destruct (ranks_of N nto) as [|x l] eqn:E.
  - cbn [length Z.of_nat Z.eqb negb map repeat]. rewrite (H eq_refl). cbn [length repeat map]. unfold mk. rewrite E, (H eq_refl). reflexivity.
  - rewrite <- E. replace (negb (Z.of_nat (length (ranks_of N nto)) =? 0)) with true by (rewrite E; cbn [length]; lia). reflexivity.
Qed.

Lemma filter_msgs (P : Z -> bool) (g : Z -> msg) L : (forall x, peer (g x) = x) ->
  filter (fun m => P (peer m)) (map g L) = map g (filter P L).
Proof. intros H. induction L as [|x L IH]; [reflexivity|]. cbn [map filter]. rewrite H. destruct (P x); cbn [map]; now rewrite IH. Qed.

Section Exch.
Context (N : Z) (cnt : Z -> Z -> Z).
Hypothesis Hcnt : forall r q, 0 <= cnt r q.
Context (f : Z -> Z -> bool) (Hf : forall p q, f p q = f q p).
(** offset, in the buffer of rank q, of the elements for rank r; and in that of r, of those coming from q *)
Definition off_to (q r : Z) : Z := off_at (cnt q) (ranks_of N (cnt q)) 0 r.
Definition off_fr (r q : Z) : Z := off_at (fun p => cnt p r) (ranks_of N (fun p => cnt p r)) 0 q.

Definition the_msg (q r : Z) : msg := mkMsg r 909 (off_to q r) (cnt q r).

Lemma exch {A} (sb : Z -> table A) r : 0 <= r < N ->
  exists rb, recv_all (fun q => filter (fun m => f q (peer m)) (side_msgs (mk N (cnt q)))) sb r
               (filter (fun m => f r (peer m)) (side_msgs (mk N (fun q => cnt q r)))) = Some rb /\
    forall q k, 0 <= q < N -> f r q = true -> 0 <= k < cnt q r -> rb (off_fr r q + k) = sb q (off_to q r + k).
Proof.
  intros Hr.
  assert (Hrl : NoDup (ranks_of N (fun p => cnt p r))) by apply ranks_nodup.
  set (L := ranks_of N (fun p => cnt p r)) in *.
  assert (Hmsgs : filter (fun m => f r (peer m)) (side_msgs (mk N (fun q => cnt q r))) =
    map (fun p => mkMsg p 909 (off_fr r p) (cnt p r)) (filter (fun p => f r p) L)).
  { unfold mk. fold L. rewrite (side_msgs_spec (fun p => cnt p r)) by assumption. fold L.
    rewrite (filter_msgs (f r)) by reflexivity. reflexivity. }
  rewrite Hmsgs.
  assert (HinL : forall p, In p (filter (fun p => f r p) L) <-> (0 <= p < N /\ cnt p r <> 0) /\ f r p = true).
  { intros p. rewrite filter_In. unfold L. rewrite ranks_in. tauto. }
  destruct (recv_all_spec (fun q => filter (fun m => f q (peer m)) (side_msgs (mk N (cnt q)))) sb r
    (fun m => the_msg (peer m) r) (map (fun p => mkMsg p 909 (off_fr r p) (cnt p r)) (filter (fun p => f r p) L))) as (rb & E & H).
  { intros m Hm. apply in_map_iff in Hm as (p & <- & Hp). apply HinL in Hp as [[Hp Hc] Hfp]. cbn [peer tag len the_msg].
    split; [|reflexivity].
    unfold mk. rewrite side_msgs_spec by apply ranks_nodup.
    set (g := fun p0 => mkMsg p0 909 _ _). 
    assert (Eg : filter (fun m => f p (peer m)) (map g (ranks_of N (cnt p))) = map g (filter (fun x => f p x && negb (cnt p x =? 0)) (seqZ N))).
    { rewrite (filter_msgs (f p)) by reflexivity. f_equal. unfold ranks_of. clear. induction (seqZ N) as [|x X IH]; [reflexivity|]. cbn [filter].
      destruct (cnt p x =? 0); cbn [negb]; [rewrite andb_false_r; exact IH|]. rewrite andb_true_r. cbn [filter]. destruct (f p x); now rewrite IH. }
    rewrite Eg. apply (filter_unique g (fun s0 => (peer s0 =? r) && (tag s0 =? 909))) with (a := r).
    - apply NoDup_seqZ.
    - now apply in_seqZ.
    - rewrite Hf, Hfp. destruct (Z.eqb_spec (cnt p r) 0); [contradiction|reflexivity].
    - unfold g. cbn [peer tag]. rewrite Z.eqb_refl. reflexivity.
    - intros b _ _ Hb. unfold g in Hb. cbn [peer tag] in Hb. lia. }
  exists rb. split; [exact E|]. intros q k Hq Hfq Hk.
  assert (Hin : In q (filter (fun p => f r p) L)) by (apply HinL; repeat split; [lia|lia|lia|exact Hfq]).
  rewrite (H (mkMsg q 909 (off_fr r q) (cnt q r))).
  - cbn [peer off the_msg]. f_equal. ring.
  - apply in_map_iff. exists q. auto.
  - unfold covers. cbn [off len]. lia.
  - intros m' Hm' Hc. apply in_map_iff in Hm' as (p & <- & Hp). unfold covers in Hc. cbn [off len] in Hc.
    destruct (Z.eq_dec p q) as [->|Hn]; [reflexivity|]. exfalso.
    apply filter_In in Hp as [Hp _]. apply filter_In in Hin as [Hin _].
    pose proof (off_disj (fun p => cnt p r) (fun p => Hcnt p r) L 0 p q Hp Hin Hn) as D.
    unfold off_fr in Hc. fold L in Hc. unfold off_fr in *. fold L in Hc. lia.
Qed.
End Exch.
