(** Proofs about factorize and findMinimalSurfaceGrid. *)
From Verif Require Import Base GeometryModel GeometryProofs OwnerProofs FullLxProofs LabelProofs GridModel.
From Coq Require Import Znumtheory Sorted Permutation.

(** *** factorize *)
Definition least_div (fatt N : Z) : Prop := forall d, 2 <= d -> (d | N) -> fatt <= d.

Lemma least_prime fatt N : 2 <= fatt -> least_div fatt N -> (fatt | N) -> prime fatt.
Proof.
  intros H2 Hl Hd. apply prime_alt. split; [lia|]. intros n Hn Hdiv.
  assert (fatt <= n); [|lia]. apply Hl; [lia|]. now apply Z.divide_trans with fatt.
Qed.

Lemma factorize_loop_spec : forall fuel N fatt acc, 1 <= N -> 2 <= fatt -> least_div fatt N ->
  2 * N - fatt + 1 < Z.of_nat fuel -> 0 < Z.of_nat fuel ->
  exists l, factorize_loop fuel N fatt acc = Some (acc ++ l) /\ Forall prime l /\ prodZ l = N /\
    Forall (fun p => fatt <= p) l /\ Sorted Z.le l.
Proof.
  induction fuel as [|fuel IH]; intros N fatt acc HN Hf Hl Hfu Hfu0; [lia|].
  cbn [factorize_loop]. destruct (Z.ltb_spec 1 N) as [H1|H1].
    2:{ exists []. rewrite app_nil_r. repeat split; auto. unfold prodZ; cbn; lia. }
    pose proof (Hl N ltac:(lia) (Z.divide_refl N)) as Hle.
    pose proof (Z.quot_rem' N fatt) as E. pose proof (Z.rem_bound_pos N fatt ltac:(lia) ltac:(lia)) as B.
    destruct (Z.eqb_spec (N - Z.quot N fatt * fatt) 0) as [Er|Er].
    + set (q := Z.quot N fatt) in *. assert (EN : N = q * fatt) by lia.
      assert (Hdv : (fatt | N)) by (exists q; exact EN).
      assert (1 <= q) by nia.
      destruct (IH q fatt (acc ++ [fatt])) as (l & E1 & E2 & E3 & E4 & E5); auto.
      { intros d Hd2 Hd. apply Hl; auto. rewrite EN. now apply Z.divide_mul_l. }
      { assert (q + 1 <= N) by nia. lia. } { lia. }
      exists (fatt :: l). rewrite E1, <- app_assoc. split; [reflexivity|]. split.
      { constructor; auto. apply (least_prime fatt N); auto. }
      split; [rewrite prodZ_cons, E3, EN; ring|]. split; [constructor; [lia|exact E4]|].
      constructor; [exact E5|]. destruct l; constructor. now inversion E4.
    + destruct (IH N (fatt + 1) acc) as (l & E1 & E2 & E3 & E4 & E5); auto; try lia.
      { intros d Hd2 Hd. pose proof (Hl d Hd2 Hd). destruct (Z.eq_dec d fatt) as [->|]; [|lia].
        exfalso. apply Er. destruct Hd as (k & ->). rewrite Z.quot_mul by lia. ring. }
      exists l. repeat split; auto. eapply Forall_impl; [|exact E4]. intros; cbv beta in *; lia.
Qed.

Theorem factorize_main N : 1 <= N -> exists l, factorize N = Some l /\ Forall prime l /\ Sorted Z.le l /\ prodZ l = N.
Proof.
  intros HN. destruct (factorize_loop_spec (Z.to_nat (2 * N) + 1) N 2 [] HN ltac:(lia)) as (l & E & H1 & H2 & _ & H3); try lia.
  - intros d Hd _. lia.
  - exists l. auto.
Qed.

Lemma prime_len l : Forall prime l -> 2 ^ Z.of_nat (length l) <= prodZ l.
Proof.
  induction 1 as [|p l Hp Hl IH]; [reflexivity|]. rewrite prodZ_cons. cbn [length].
  rewrite Nat2Z.inj_succ, Z.pow_succ_r by lia. destruct Hp as [Hp _]. 
  pose proof (Z.pow_pos_nonneg 2 (Z.of_nat (length l)) ltac:(lia) ltac:(lia)). nia.
Qed.

(** *** distribution of factors *)
Definition dig (c : Z) (k : nat) : nat := Z.to_nat ((c / 4 ^ Z.of_nat k) mod 4).
Lemma dig_lt c k : (dig c k < 4)%nat.
Proof. unfold dig. pose proof (Z.mod_pos_bound (c / 4 ^ Z.of_nat k) 4 ltac:(lia)). lia. Qed.

Lemma pow4_pos k : 0 < 4 ^ Z.of_nat k.
Proof. apply Z.pow_pos_nonneg; lia. Qed.

Lemma dig_eq c k : 0 <= c -> Z.to_nat (Z.rem (Z.quot c (4 ^ (Z.of_nat (S k) - 1))) 4) = dig c k.
Proof.
  intros Hc. unfold dig. replace (Z.of_nat (S k) - 1) with (Z.of_nat k) by lia. pose proof (pow4_pos k).
  rewrite Z.quot_div_nonneg by lia. rewrite Z.rem_mod_nonneg; [reflexivity| |lia]. apply Z.div_pos; lia.
Qed.

Lemma mask_step k : (match k with O => 0 | S _ => 4 ^ (Z.of_nat k - 1) end) = Z.quot (4 ^ (Z.of_nat (S k) - 1)) 4.
Proof.
  destruct k; [reflexivity|]. replace (Z.of_nat (S (S k)) - 1) with (Z.succ (Z.of_nat k)) by lia.
  rewrite Z.pow_succ_r by lia. rewrite Z.mul_comm, Z.quot_mul by lia. f_equal. lia.
Qed.

Section A.
Context (L fact : list Z).

Fixpoint asg (c : Z) (k : nat) (R : list Z) : list Z + nat :=
  match k with
  | O => inl R
  | S i => let mu := dig c i in
      let R' := upd R mu (R.[mu] * fact.[i]) in
      if (Z.rem L.[mu] R'.[mu] =? 0) && (R'.[mu] <=? L.[mu]) then asg c i R' else inr i
  end.

Lemma assign_asg c k R : 0 <= c -> assign_factors L fact c k (4 ^ (Z.of_nat k - 1)) R = asg c k R.
Proof.
  intros Hc. revert R. induction k as [|k IH]; intros R; [reflexivity|]. cbn [assign_factors asg].
  rewrite dig_eq by assumption. cbv zeta. destruct (_ && _); [|reflexivity].
  rewrite <- mask_step. destruct k; [reflexivity|]. apply IH.
Qed.

Lemma asg_mono c k R f : asg c k R = inr f -> (f < k)%nat.
Proof.
  revert R; induction k as [|k IH]; intros R H; [discriminate|]. cbn [asg] in H. cbv zeta in H.
  destruct (_ && _); [apply IH in H; lia|]. injection H as ->. lia.
Qed.

Lemma dig_hi c c' f k : (f <= k)%nat -> c / 4 ^ Z.of_nat f = c' / 4 ^ Z.of_nat f -> dig c k = dig c' k.
Proof.
  intros Hf E. unfold dig. replace (Z.of_nat k) with (Z.of_nat f + (Z.of_nat k - Z.of_nat f)) by lia.
  rewrite Z.pow_add_r by lia. rewrite <- !Z.div_div; try apply pow4_pos; try (pose proof (pow4_pos f); lia).
  now rewrite E.
Qed.

Lemma asg_same c c' k R f : c / 4 ^ Z.of_nat f = c' / 4 ^ Z.of_nat f -> asg c k R = inr f -> asg c' k R = inr f.
Proof.
  intros E. revert R; induction k as [|k IH]; intros R H; [discriminate|].
  pose proof (asg_mono _ _ _ _ H) as Hlt.
  cbn [asg] in *. cbv zeta in *. rewrite <- (dig_hi c c' f k ltac:(lia) E).
  destruct (_ && _); [now apply IH|exact H].
Qed.

Lemma dig_lo c k mu i : (i < k)%nat -> dig (mu * 4 ^ Z.of_nat k + c) i = dig c i.
Proof.
  intros Hi. unfold dig. 
  replace (Z.of_nat k) with ((Z.of_nat k - Z.of_nat i - 1) + 1 + Z.of_nat i) by lia.
  rewrite !Z.pow_add_r by lia. rewrite Z.mul_assoc. rewrite Z.div_add_l by (pose proof (pow4_pos i); lia).
  rewrite Z.pow_1_r. rewrite Z.mul_assoc, Z.add_comm, Z.mod_add by lia. reflexivity.
Qed.

Lemma dig_top c k mu : 0 <= c < 4 ^ Z.of_nat k -> (mu < 4)%nat -> dig (Z.of_nat mu * 4 ^ Z.of_nat k + c) k = mu.
Proof.
  intros Hc Hmu. unfold dig. rewrite Z.div_add_l by lia. rewrite Z.div_small by lia.
  rewrite Z.add_0_r, Z.mod_small by lia. lia.
Qed.

Lemma asg_lo c k mu R j : (j <= k)%nat -> asg (mu * 4 ^ Z.of_nat k + c) j R = asg c j R.
Proof.
  intros Hj. revert R; induction j as [|j IH]; intros R; [reflexivity|]. cbn [asg]. rewrite dig_lo by lia.
  cbv zeta. destruct (_ && _); [apply IH; lia|reflexivity].
Qed.

(** soundness *)
Lemma prodZ_upd R mu v : length R = 4%nat -> (mu < 4)%nat -> R.[mu] * prodZ (upd R mu v) = v * prodZ R.
Proof.
  intros HR Hmu. destruct (length4 R HR) as (a&b&c&d&->).
  destruct mu as [|[|[|[|]]]]; [| | | |lia]; unfold prodZ; cbn [upd nth fold_right]; ring.
Qed.
Lemma prodZ_updm R mu p : length R = 4%nat -> (mu < 4)%nat -> prodZ (upd R mu (R.[mu] * p)) = p * prodZ R.
Proof.
  intros HR Hmu. destruct (length4 R HR) as (a&b&c&d&->).
  destruct mu as [|[|[|[|]]]]; [| | | |lia]; unfold prodZ; cbn [upd nth fold_right]; ring.
Qed.

Definition dvL (R : list Z) : Prop := length R = 4%nat /\ forall mu, (mu < 4)%nat -> 0 < R.[mu] /\ (R.[mu] | L.[mu]).

Lemma firstn_S_prod k : (k < length fact)%nat -> prodZ (firstn (S k) fact) = fact.[k] * prodZ (firstn k fact).
Proof.
  intros Hk. rewrite <- (firstn_skipn k fact) at 1. rewrite firstn_app, firstn_firstn, firstn_length.
  replace (Nat.min (S k) k) with k by lia. rewrite Nat.min_l by lia. replace (S k - k)%nat with 1%nat by lia.
  assert (E : firstn 1 (skipn k fact) = [fact.[k]]).
  { clear -Hk. revert k Hk. induction fact as [|x l IH]; intros [|k] Hk; cbn in *; try lia; auto.
    - apply IH. lia. }
  rewrite E, prodZ_app. unfold prodZ at 2. cbn [fold_right]. ring.
Qed.

Lemma asg_sound (Hpos : Forall (fun p => 0 < p) fact) c k R T : (k <= length fact)%nat -> dvL R -> asg c k R = inl T ->
  dvL T /\ prodZ T = prodZ R * prodZ (firstn k fact).
Proof.
  revert R; induction k as [|k IH]; intros R Hk HR H.
  - injection H as <-. split; [exact HR|]. cbn [firstn]. unfold prodZ at 3. cbn [fold_right]. ring.
  - cbn [asg] in H. set (mu := dig c k) in *. pose proof (dig_lt c k) as Hmu. fold mu in Hmu. cbv zeta in H.
    destruct HR as [HRl HRd].
    rewrite nth_upd_eq in H by (rewrite HRl; exact Hmu).
    assert (Hp : 0 < fact.[k]). { rewrite Forall_forall in Hpos. apply Hpos. apply nth_In. lia. }
    destruct (HRd mu Hmu) as [HR0 HRdv].
    destruct (Z.eqb_spec (Z.rem L.[mu] (R.[mu] * fact.[k])) 0) as [Er|]; [|discriminate].
    destruct (Z.leb_spec (R.[mu] * fact.[k]) L.[mu]); [|discriminate]. cbn [andb] in H.
    destruct (fun X => IH (upd R mu (R.[mu] * fact.[k])) ltac:(lia) X H) as [H1 H2].
    { split; [now rewrite upd_length|]. intros nu Hnu. destruct (Nat.eq_dec mu nu) as [<-|Hne].
      - rewrite nth_upd_eq by (rewrite HRl; exact Hmu). split; [nia|].
        apply Z.rem_divide; [nia|exact Er].
      - rewrite nth_upd_neq by assumption. now apply HRd. }
    split; [exact H1|]. rewrite H2, prodZ_updm by assumption. rewrite firstn_S_prod by lia. ring.
Qed.

(** completeness *)
Lemma prime_in4 p q : prime p -> length q = 4%nat -> (p | prodZ q) -> exists mu, (mu < 4)%nat /\ (p | q.[mu]).
Proof.
  intros Hp Hl Hd. destruct (length4 q Hl) as (a&b&c&d&->). unfold prodZ in Hd. cbn [fold_right] in Hd.
  destruct (prime_mult p Hp _ _ Hd) as [H|Hd1]; [exists 0%nat; split; [lia|exact H]|].
  destruct (prime_mult p Hp _ _ Hd1) as [H|Hd2]; [exists 1%nat; split; [lia|exact H]|].
  destruct (prime_mult p Hp _ _ Hd2) as [H|Hd3]; [exists 2%nat; split; [lia|exact H]|].
  rewrite Z.mul_1_r in Hd3. exists 3%nat; split; [lia|exact Hd3].
Qed.

Lemma asg_complete (Hpr : Forall prime fact) (HLp : forall mu, (mu < 4)%nat -> 0 < L.[mu]) T k R q : (k <= length fact)%nat -> dvL R -> dvL T -> length q = 4%nat ->
  (forall mu, (mu < 4)%nat -> T.[mu] = R.[mu] * q.[mu]) -> prodZ q = prodZ (firstn k fact) ->
  exists c, 0 <= c < 4 ^ Z.of_nat k /\ asg c k R = inl T.
Proof.
  revert R q; induction k as [|k IH]; intros R q Hk HR HT Hq Eq Ep.
  - exists 0. split; [cbn; lia|]. cbn [asg]. f_equal. cbn [firstn] in Ep. unfold prodZ in Ep at 2. cbn [fold_right] in Ep.
    destruct HR as [HRl HRd]. destruct HT as [HTl HTd].
    assert (Hq1 : forall mu, (mu < 4)%nat -> 0 < q.[mu]).
    { intros mu Hmu. specialize (Eq mu Hmu). destruct (HRd mu Hmu). destruct (HTd mu Hmu). nia. }
    apply list4_ext; auto. intros mu Hmu. rewrite Eq by assumption.
    assert (q.[mu] = 1); [|lia].
    pose proof (Hq1 0%nat ltac:(lia)) as Q0. pose proof (Hq1 1%nat ltac:(lia)) as Q1.
    pose proof (Hq1 2%nat ltac:(lia)) as Q2. pose proof (Hq1 3%nat ltac:(lia)) as Q3.
    destruct (length4 q Hq) as (a&b&c&d&->). unfold prodZ in Ep. cbn [fold_right nth] in *.
    assert (Hd : forall x y, 0 < x -> 0 < y -> x * y = 1 -> x = 1 /\ y = 1) by (clear; intros; nia).
    assert (0 < d * 1) by lia. assert (0 < c * (d * 1)) by nia. assert (0 < b * (c * (d * 1))) by nia.
    apply Hd in Ep as [-> Ep]; auto. apply Hd in Ep as [-> Ep]; auto. apply Hd in Ep as [-> Ep]; auto.
    assert (d = 1) as -> by lia. destruct mu as [|[|[|[|]]]]; try reflexivity; lia.
  - rewrite firstn_S_prod in Ep by lia.
    assert (Hp : prime fact.[k]). { rewrite Forall_forall in Hpr. apply Hpr. apply nth_In. lia. }
    destruct (prime_in4 fact.[k] q Hp Hq) as (mu & Hmu & [w Hw]). { rewrite Ep. apply Z.divide_factor_l. }
    destruct HR as [HRl HRd]. destruct (HRd mu Hmu) as [HR0 HRv]. destruct Hp as [Hp _]. 
    pose proof HT as [HTl HTd]. destruct (HTd mu Hmu) as [HT0 HTv].
    assert (ET : T.[mu] = R.[mu] * fact.[k] * w) by (rewrite Eq, Hw by assumption; ring).
    assert (Hdiv : (R.[mu] * fact.[k] | L.[mu])).
    { apply Z.divide_trans with T.[mu]; [|exact HTv]. exists w. rewrite ET. ring. }
    assert (Hlt : 0 < R.[mu] * fact.[k]) by nia.
    destruct (IH (upd R mu (R.[mu] * fact.[k])) (upd q mu w)) as (c & Hc & Ec); auto.
    { lia. }
    { split; [now rewrite upd_length|]. intros nu Hnu. destruct (Nat.eq_dec mu nu) as [<-|Hne].
      - rewrite nth_upd_eq by (rewrite HRl; exact Hmu). auto.
      - rewrite nth_upd_neq by assumption. now apply HRd. }
    { now rewrite upd_length. }
    { intros nu Hnu. destruct (Nat.eq_dec mu nu) as [<-|Hne].
      - rewrite !nth_upd_eq by (rewrite ?HRl, ?Hq; exact Hmu). exact ET.
      - rewrite !nth_upd_neq by assumption. now apply Eq. }
    { pose proof (prodZ_upd q mu w Hq Hmu) as E. rewrite Hw, Ep in E.
      assert (w <> 0) by nia. nia. }
    exists (Z.of_nat mu * 4 ^ Z.of_nat k + c). pose proof (pow4_pos k).
    split. { rewrite Nat2Z.inj_succ, Z.pow_succ_r by lia. nia. }
    cbn [asg]. rewrite dig_top by assumption. cbv zeta. rewrite nth_upd_eq by (rewrite HRl; exact Hmu).
    replace (Z.rem L.[mu] (R.[mu] * fact.[k])) with 0 by (symmetry; apply Z.rem_divide; [lia|exact Hdiv]).
    replace (R.[mu] * fact.[k] <=? L.[mu]) with true.
    2:{ symmetry. apply Z.leb_le. apply Z.divide_pos_le; auto. }
    cbn [Z.eqb andb]. rewrite asg_lo by lia. exact Ec.
Qed.
End A.

(** *** the search *)
Section S.
Context (ovf : Z -> Z) (L fact fixn : list Z) (use_eo fr : bool) (LV NR : Z).
Let n := length fact.
Let ncombo := 4 ^ Z.of_nat n.
Definition ones := [1;1;1;1].
Definition grid_of (c : Z) : option (list Z) :=
  match asg L fact c (length fact) ones with
  | inl R0 => let R := to_ranks L R0 fr in if grid_accepted L R fixn use_eo then Some R else None
  | inr _ => None
  end.
Definition surf (R : list Z) : Z := LV - bulk_recip_lat_volume R L.
Definition var (R : list Z) : Z := compute_border_variance ovf L R fr.
Definition better (s : search) (R : list Z) : Prop := min_surf s < surf R \/ (min_surf s = surf R /\ mBV s <= var R).
Definition best (s : search) (c : Z) : Prop :=
  (min_surf s = -1 /\ mR s = [-1;-1;-1;-1] /\ forall c', 0 <= c' < c -> grid_of c' = None) \/
  (exists c0, 0 <= c0 < c /\ grid_of c0 = Some (mR s) /\ min_surf s = surf (mR s) /\ mBV s = var (mR s) /\
     forall c' R, 0 <= c' < c -> grid_of c' = Some R -> better s R).
Hypothesis Hsurf : forall c R, grid_of c = Some R -> 0 <= surf R.

Lemma best_none s c d : best s c -> (forall c', c <= c' < d -> grid_of c' = None) -> c <= d -> best s d.
Proof.
  intros [(H1 & H2 & H3)|(c0 & H1 & H2 & H3 & H4 & H5)] Hn Hle.
  - left. split; [exact H1|]. split; [exact H2|]. intros c' Hc'. destruct (Z.lt_ge_cases c' c); [apply H3; lia|apply Hn; lia].
  - right. exists c0. split; [lia|]. repeat split; auto. intros c' R Hc' HR. destruct (Z.lt_ge_cases c' c); [apply (H5 c' R); [lia|exact HR]|].
    rewrite Hn in HR by lia. discriminate.
Qed.

Lemma best_consider s c R : 0 <= c -> best s c -> grid_of c = Some R -> best (consider ovf L R LV fr s) (c + 1).
Proof.
  intros Hc HB HR. unfold consider. fold (surf R) (var R). pose proof (Hsurf c R HR) as Hs.
  assert (Hext : forall c', 0 <= c' < c + 1 -> 0 <= c' < c \/ c' = c) by (clear; intros; lia).
  destruct HB as [(H1 & H2 & H3)|(c0 & H1 & H2 & H3 & H4 & H5)].
  - rewrite H1. change (-1 =? -1) with true. rewrite orb_true_r. cbn [orb].
    replace (surf R =? -1) with false by lia. cbn [andb].
    right. exists c. cbn [mR min_surf mBV]. split; [lia|]. split; [exact HR|]. split; [reflexivity|]. split; [reflexivity|].
    intros c' R' Hc' HR'. destruct (Hext c' Hc') as [Hl| ->].
    + rewrite H3 in HR' by assumption. discriminate.
    + rewrite HR in HR'. injection HR' as <-. right. cbn. lia.
  - pose proof (Hsurf c0 _ H2) as Hs0.
    replace (min_surf s =? -1) with false by lia. rewrite orb_false_r.
    destruct (Z.ltb_spec (surf R) (min_surf s)) as [Hlt|Hge].
    + replace (surf R =? min_surf s) with false by lia. cbn [andb orb].
      right. exists c. cbn [mR min_surf mBV]. split; [lia|]. split; [exact HR|]. split; [reflexivity|]. split; [reflexivity|].
      intros c' R' Hc' HR'. destruct (Hext c' Hc') as [Hl| ->].
      * specialize (H5 c' R' Hl HR'). unfold better in *. cbn [min_surf mBV]. lia.
      * rewrite HR in HR'. injection HR' as <-. right. cbn [min_surf mBV]. lia.
    + destruct (Z.eqb_spec (surf R) (min_surf s)) as [Heq|Hne]; cbn [andb].
      * destruct (Z.ltb_spec (var R) (mBV s)) as [Hv|Hv]; cbn [orb].
        -- right. exists c. cbn [mR min_surf mBV]. split; [lia|]. split; [exact HR|]. split; [reflexivity|]. split; [reflexivity|].
           intros c' R' Hc' HR'. destruct (Hext c' Hc') as [Hl| ->].
           ++ specialize (H5 c' R' Hl HR'). unfold better in *. cbn [min_surf mBV]. lia.
           ++ rewrite HR in HR'. injection HR' as <-. right. cbn [min_surf mBV]. lia.
        -- right. exists c0. cbn [mR min_surf mBV]. split; [lia|]. repeat split; auto.
           intros c' R' Hc' HR'. destruct (Hext c' Hc') as [Hl| ->].
           ++ exact (H5 c' R' Hl HR').
           ++ rewrite HR in HR'. injection HR' as <-. right. cbn [min_surf mBV]. lia.
      * right. exists c0. cbn [mR min_surf mBV orb]. split; [lia|]. repeat split; auto.
        intros c' R' Hc' HR'. destruct (Hext c' Hc') as [Hl| ->].
        -- exact (H5 c' R' Hl HR').
        -- rewrite HR in HR'. injection HR' as <-. left. cbn [min_surf mBV]. lia.
Qed.

Definition sk (f : nat) : nat := (f - 1)%nat.
Lemma skip_sk f : skip (Z.of_nat f) = 4 ^ Z.of_nat (sk f).
Proof. unfold skip, sk. f_equal. lia. Qed.
Definition aligned (c : Z) : Prop := forall f, asg L fact c n ones = inr f -> (4 ^ Z.of_nat (sk f) | c).

Lemma pow4_div a b : (a <= b)%nat -> (4 ^ Z.of_nat a | 4 ^ Z.of_nat b).
Proof.
  intros H. exists (4 ^ (Z.of_nat b - Z.of_nat a)). rewrite <- Z.pow_add_r by lia. f_equal. lia.
Qed.

(** adding 4^m to a multiple of 4^m either stays in the same block of 4^f or lands on its boundary *)
Lemma cross c m f : (m <= f)%nat -> (4 ^ Z.of_nat m | c) ->
  c / 4 ^ Z.of_nat f = (c + 4 ^ Z.of_nat m) / 4 ^ Z.of_nat f \/ (4 ^ Z.of_nat f | c + 4 ^ Z.of_nat m).
Proof.
  intros Hm [a Ha]. destruct (pow4_div m f Hm) as [b Hb]. pose proof (pow4_pos m) as Pm. pose proof (pow4_pos f) as Pf.
  set (u := 4 ^ Z.of_nat m) in *. set (v := 4 ^ Z.of_nat f) in *. subst c.
  assert (0 < b) by nia.
  replace (a * u + u) with ((a + 1) * u) by ring. rewrite Hb.
  rewrite !Z.div_mul_cancel_r by lia.
  destruct (Z.eq_dec ((a + 1) mod b) 0) as [E|E].
  - right. apply Z.mod_divide in E; [|lia]. destruct E as [k E]. exists k. rewrite E. ring.
  - left. pose proof (Z.div_mod a b ltac:(lia)). pose proof (Z.mod_pos_bound a b ltac:(lia)).
    pose proof (Z.div_mod (a + 1) b ltac:(lia)). pose proof (Z.mod_pos_bound (a + 1) b ltac:(lia)).
    assert (b * (a / b) < b * ((a + 1) / b) + b) by lia. assert (b * ((a + 1) / b) < b * (a / b) + b) by lia.
    nia.
Qed.

Lemma block c m d f : (m <= f)%nat -> (4 ^ Z.of_nat m | c) -> c <= d < c + 4 ^ Z.of_nat m -> c / 4 ^ Z.of_nat f = d / 4 ^ Z.of_nat f.
Proof.
  intros Hm [a Ha] Hd. destruct (pow4_div m f Hm) as [b Hb]. pose proof (pow4_pos m) as Pm. pose proof (pow4_pos f) as Pf.
  set (u := 4 ^ Z.of_nat m) in *. set (v := 4 ^ Z.of_nat f) in *. subst c. assert (0 < b) by nia.
  rewrite Hb. rewrite (Z.mul_comm b u). rewrite <- !Z.div_div by lia. rewrite Z.div_mul by lia. f_equal.
  apply Z.div_unique with (d - a * u); lia.
Qed.

Lemma search_best : forall fuel c s, 0 <= c < ncombo -> ncombo - c <= Z.of_nat fuel -> aligned c -> best s c ->
  exists s', search_loop ovf fuel L fact fixn use_eo fr LV ncombo c s = Some s' /\ best s' ncombo.
Proof.
  induction fuel as [|fuel IH]; intros c s Hc Hf Ha Hb; [lia|].
  cbn [search_loop]. rewrite assign_asg by lia. fold n ones.
  destruct (asg L fact c n ones) as [R0|f] eqn:E.
  - (* one step *)
    assert (Hn : forall s', best s' (c + 1) -> exists s'', (if c + 1 <? ncombo
       then search_loop ovf fuel L fact fixn use_eo fr LV ncombo (c + 1) s' else Some s') = Some s'' /\ best s'' ncombo).
    { intros s' Hs'. destruct (Z.ltb_spec (c + 1) ncombo).
      - apply IH; auto; try lia. intros f Ef.
        destruct (cross c 0 f ltac:(lia) ltac:(exists c; cbn; lia)) as [Eq|Hd].
        + cbn in Eq. symmetry in Eq. pose proof (asg_same L fact (c + 1) c n ones f Eq Ef) as E2. congruence.
        + cbn in Hd. apply Z.divide_trans with (4 ^ Z.of_nat f); [|exact Hd]. apply pow4_div. unfold sk. lia.
      - exists s'. split; [reflexivity|]. replace ncombo with (c + 1) by lia. exact Hs'. }
    destruct (grid_accepted L (to_ranks L R0 fr) fixn use_eo) eqn:Eg.
    + apply Hn. apply best_consider; auto; [lia|]. unfold grid_of. fold n. rewrite E. cbv zeta. now rewrite Eg.
    + change (skip (-1)) with 1. apply Hn. apply best_none with c; auto; [|lia]. intros c' Hc'.
      assert (c' = c) as -> by lia. unfold grid_of. fold n. rewrite E. cbv zeta. now rewrite Eg.
  - rewrite skip_sk. set (u := 4 ^ Z.of_nat (sk f)). pose proof (pow4_pos (sk f)) as Pu. fold u in Pu.
    assert (Hm : (sk f <= f)%nat) by (unfold sk; lia). specialize (Ha f E).
    assert (Hnone : forall c', c <= c' < c + u -> grid_of c' = None).
    { intros c' Hc'. unfold grid_of. fold n. rewrite (asg_same L fact c c' n ones f); auto.
      apply block with (sk f); auto. }
    destruct (Z.ltb_spec (c + u) ncombo).
    + apply IH; auto; try lia; [|apply best_none with c; auto; lia].
      intros f' Ef'. destruct (le_lt_dec f' f) as [Hle|Hlt].
      * apply Z.divide_trans with u; [apply pow4_div; unfold sk; lia|]. apply Z.divide_add_r; [exact Ha|apply Z.divide_refl].
      * destruct (cross c (sk f) f' ltac:(lia) Ha) as [Eq|Hd].
        -- fold u in Eq. symmetry in Eq. pose proof (asg_same L fact (c + u) c n ones f' Eq Ef') as E2.
           rewrite E in E2. injection E2 as ->. lia.
        -- fold u in Hd. apply Z.divide_trans with (4 ^ Z.of_nat f'); [|exact Hd]. apply pow4_div. unfold sk. lia.
    + exists s. split; [reflexivity|]. apply best_none with c; auto; [|lia]. intros c' Hc'. apply Hnone. lia.
Qed.
End S.
