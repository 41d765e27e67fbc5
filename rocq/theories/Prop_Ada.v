(** C89: the adaptative search of the length of the step. *)
From Coq Require Import Reals Lra Lia.
From Coquelicot Require Import Coquelicot.
From Verif Require Import Base GeometryModel GeometrySpec GeoMiscModel HaloModel HaloProofs ReduceSpec StapleModel StapleSpec StapleProofs Prop_Staple
  CplxModel MatModel MatSpec MatProofs MatAlg OwnerProofs ChecksumSpec ChecksumMain StapleMain IldgProofs GaugeModel GaugeSpec GaugeProofs GaugeAlg Prop_Gauge
  GfixModel GfixSpec GfixProofs GfixStep Prop_Gfix GfdModel GfdProofs AdaModel.
From Verif Require ParModel ParSpec.
Set Bullet Behavior "Strict Subproofs".
Open Scope Z_scope.

(** ** Specification *)
(** the change of the functional, from the configuration U transformed by Om, when Om is multiplied n times by the step of length alpha in the direction D *)
Definition landscape (G : list Z) (U : list Z -> nat -> cmat) (Om D : list Z -> cmat) (first n : nat) (alpha : R) : R :=
  (functional G (transformed G (fun x => Nat.iter n (mmul (exp_der_alpha_half (D x) alpha)) (Om x)) U) first - functional G (transformed G Om U) first)%R.
(** the values on each site of the functional of the configuration reached *)
Definition reached_offset (g : grid) (U : list Z -> nat -> cmat) (Om : list Z -> cmat) (first : nat) (off : Z -> Z -> R) : Prop :=
  forall r i x, 0 <= r < nranks g -> 0 <= i < locVol g -> glbCoordOfLoclx (rank_labels g r) i = Some x ->
  off r i = (- lsum (fun mu => re_tr (transformed (glbSize g) Om U x mu)) (fixed_dirs first))%R.
Definition at_sites (g : grid) (D : list Z -> cmat) (der : Z -> Z -> cmat) : Prop :=
  forall r i x, 0 <= r < nranks g -> 0 <= i < locVol g -> glbCoordOfLoclx (rank_labels g r) i = Some x -> der r i = D x.
(** a parabola with the values 0, F1, F2 in 0, a, 2a (the only one, a not being 0) has its only minimum in v; its coefficient is larger than 1e-14 *)
Definition minimum_of_parabola (a F1 F2 v : R) : Prop :=
  (a <> 0 /\ exists p q, let y := fun t => p * (t * t) + q * t in y a = F1 /\ y (2 * a) = F2 /\ / 10 ^ 14 < p /\ forall t, t <> v -> y v < y t)%R.

Lemma decide_found a F1 F2 v gu : ad_decide a 0 F1 F2 = (v, true, gu) -> a <> 0%R /\ (Rabs (v - a) < 5 / 100 * Rabs a)%R /\ minimum_of_parabola a F1 F2 v.
Proof.
  unfold ad_decide. destruct (Req_EM_T a 0) as [|Na]; [intros [= ]|]. destruct (Rlt_dec _ _) as [Ha|]; [|intros [= ]]. intros E.
  set (pa := ((F2 - 2 * F1 + 0) / (2 * (a * a)))%R) in *. set (pb := ((4 * F1 - F2 - 3 * 0) / (2 * a))%R) in *. injection E as Ev Ef _.
  apply Bool.andb_true_iff in Ef as [_ Ef]. destruct (Rlt_dec (Rabs _) (5 / 100)) as [Hd|]; [|discriminate]. rewrite Ev in Hd. split; [exact Na|].
  assert (P0 : (0 < pa)%R) by (eapply Rlt_trans; [|exact Ha]; apply Rinv_0_lt_compat, pow_lt; lra). split.
  - replace (v - a)%R with ((v / a - 1) * a)%R by (field; exact Na). rewrite Rabs_mult. apply Rmult_lt_compat_r; [now apply Rabs_pos_lt|exact Hd].
  - split; [exact Na|]. exists pa, pb. cbv zeta. split; [unfold pa, pb; field; exact Na|]. split; [unfold pa, pb; field; exact Na|]. split; [exact Ha|].
    intros t Ht. assert (D : (pb = - 2 * pa * v)%R) by (rewrite <- Ev; field; lra). rewrite D.
    assert (S : (0 < (t - v) * (t - v))%R) by (apply Rsqr_pos_lt; lra). assert (M : (0 < pa * ((t - v) * (t - v)))%R) by (apply Rmult_lt_0_compat; assumption). lra.
Qed.

Section A.
Context (g : grid) (Hv : valid_grid g = true).
Context (ord : Z -> nat -> nat -> nat -> Z -> Z -> list Z) (Ho : any_order ord) (surf_sched : Z -> list Z) (Hs : surface_order g surf_sched).
Context (bk : Z -> ParModel.backend) (Hb : launchable g bk) (ix : Z -> Z -> Z) (Hix : distinct_addresses ix (locVol g) 1).
Context (first : nat) (der : Z -> Z -> cmat) (D : list Z -> cmat) (HD : at_sites g D der) (U : list Z -> nat -> cmat) (ori : Z -> @qfield cmat) (Hori : holds g U ori).
Context (Om : list Z -> cmat) (off : Z -> Z -> R) (Hoff : reached_offset g U Om first off).
Notation G := (glbSize g).

Lemma copy_at dst src r i : 0 <= i < locVol g -> field_copy g ord dst src r i = src r i.
Proof using Ho.
  intros Hi. unfold field_copy, PAR. destruct (Ho r 26%nat 0%nat 0%nat 0 (locVol g)) as [N I].
  rewrite (fold_once (fun i _ => src r i) _ N). destruct (in_dec Z.eq_dec i _) as [|K]; [reflexivity|]. exfalso. apply K. now apply I.
Qed.
Lemma copy_holds M dst src : holds_m g M src -> holds_m g M (field_copy g ord dst src).
Proof using Ho. intros H q i x Hq Hi Hx. rewrite copy_at by exact Hi. now apply H. Qed.
Lemma point_ok M alpha s s' F : holds_m g M (fixer s) -> ad_point g ord surf_sched bk ix first der ori off alpha s s' F ->
  let M' := fun x => add_current_transformation (exp_der_alpha_half (D x) alpha) (M x) in
  holds_m g M' (fixer s') /\ F = (functional G (transformed G M' U) first - functional G (transformed G Om U) first)%R.
Proof using Hv Ho Hs Hb Hix HD Hori Hoff.
  intros HM [HT HF] M'. assert (HM' : holds_m g M' (fun r => add_current g ord (fun i => exp_der_alpha_half (der r i) alpha) r (fixer s r))).
  { intros q i x Hq Hi Hx. rewrite (add_at g ord Ho _ q _ i Hi), (HM q i x Hq Hi Hx), (HD q i x Hq Hi Hx). reflexivity. }
  destruct (apply_ok g Hv ord Ho surf_sched Hs U ori Hori _ _ s' M' HM' HT) as [(A & V & HV & HL) _]. split; [exact A|].
  destruct (C86_functional g bk ix V (fixed_conf s') first (Some off) (fun x => - lsum (fun mu => re_tr (transformed G Om U x mu)) (fixed_dirs first))%R Hv Hb Hix HV Hoff) as [_ K].
  rewrite (K F HF). unfold functional at 1 2 3. f_equal.
  - apply (f_equal Ropp). apply lsum_ext. intros x Hx. apply in_all_coords in Hx. apply lsum_ext. intros mu Hmu.
    assert (Hm : (mu < 4)%nat). { unfold fixed_dirs in Hmu. apply filter_In in Hmu as [Hmu _]. now apply in_dirs. }
    unfold re_tr. apply (f_equal fst). apply trace_proper. exact (HL x mu Hx Hm).
  - transitivity (lsum (fun x => -1 * lsum (fun mu => re_tr (transformed G Om U x mu)) (fixed_dirs first))%R (all_coords G)); [apply lsum_ext; intros; lra|]. rewrite lsum_scal. lra.
Qed.
Lemma functional_proper_m M M' : (forall x, in_box x G -> meq (M x) (M' x)) -> functional G (transformed G M U) first = functional G (transformed G M' U) first.
Proof using Hv.
  intros E. assert (L4 : length G = 4%nat) by (apply IldgProofs.glb_len; exact Hv). unfold functional. apply (f_equal Ropp). apply lsum_ext. intros x Hx. apply in_all_coords in Hx. apply lsum_ext. intros mu Hmu.
  assert (Hm : (mu < 4)%nat). { unfold fixed_dirs in Hmu. apply filter_In in Hmu as [Hmu _]. now apply in_dirs. }
  unfold re_tr. apply (f_equal fst). apply trace_proper. unfold transformed. assert (Hxm : in_box (step G x mu) G) by (apply shift_in_box; [exact Hx|lia]).
  now rewrite (E x Hx), (E _ Hxm).
Qed.
Lemma trial_ok of alpha s s' F1 F2 : holds_m g Om of -> ad_trial g ord surf_sched bk ix first der ori off of alpha s s' F1 F2 ->
  F1 = landscape G U Om D first 1 alpha /\ F2 = landscape G U Om D first 2 alpha.
Proof using Hv Ho Hs Hb Hix HD Hori Hoff.
  intros HM (s1 & P1 & P2). destruct (fun H => point_ok Om alpha _ s1 F1 H P1) as [H1 E1]; [cbn [fixer]; now apply copy_holds|]. destruct (point_ok _ alpha s1 s' F2 H1 P2) as [_ E2].
  split; [rewrite E1|rewrite E2]; unfold landscape; f_equal; apply functional_proper_m; intros x _; cbn [Nat.iter nat_rect]; rewrite !add_current_ok; reflexivity.
Qed.
Lemma loop_ok of alpha iter s alpha' found iter' s' : ad_loop g ord surf_sched bk ix first der ori off of alpha iter s alpha' found iter' s' -> holds_m g Om of -> 0 <= iter < nadapt_iter_max ->
  iter + 1 <= iter' <= nadapt_iter_max /\
  (found = true -> exists a0, (Rabs (alpha' - a0) < 5 / 100 * Rabs a0)%R /\ minimum_of_parabola a0 (landscape G U Om D first 1 a0) (landscape G U Om D first 2 a0) alpha').
Proof using Hv Ho Hs Hb Hix HD Hori Hoff.
  induction 1 as [alpha iter s s' F1 F2 alpha' found gu HT E C|alpha iter s s' F1 F2 alpha' found gu alpha'' found'' iter'' s'' HT E C _ IH]; intros HM Hit.
  - split; [lia|]. intros ->. destruct (trial_ok of alpha s s' F1 F2 HM HT) as [-> ->]. destruct (decide_found _ _ _ _ _ E) as (_ & A & B). exists alpha. now split.
  - apply Bool.orb_false_iff in C as [_ C]. apply Z.leb_gt in C. destruct (IH HM ltac:(lia)) as [A B]. split; [lia|exact B].
Qed.
Lemma point_exists M alpha s : holds_m g M (fixer s) -> exists s' F, ad_point g ord surf_sched bk ix first der ori off alpha s s' F.
Proof using Hv Ho Hs Hix Hori HD.
  intros HM. set (f := fun r => add_current g ord (fun i => exp_der_alpha_half (der r i) alpha) r (fixer s r)).
  assert (HM' : holds_m g (fun x => add_current_transformation (exp_der_alpha_half (D x) alpha) (M x)) f).
  { intros q i x Hq Hi Hx. unfold f. rewrite (add_at g ord Ho _ q _ i Hi), (HM q i x Hq Hi Hx), (HD q i x Hq Hi Hx). reflexivity. }
  destruct (C85_transform g ord surf_sched _ f U ori (fixed_conf s) false Hv Ho Hs HM' Hori) as (c & m & U' & K & H1 & _); [discriminate|].
  destruct (GfixExist.functional_exists g Hv U' c H1 bk ix first (Some off) Hix) as [F HF]. exists {| fixed_conf := c; fixer := m |}, F. split; [|exact HF]. intros r Hr. now apply K.
Qed.
Lemma point_fixer M alpha s s' F : holds_m g M (fixer s) -> ad_point g ord surf_sched bk ix first der ori off alpha s s' F -> exists M', holds_m g M' (fixer s').
Proof using Hv Ho Hs Hb Hix HD Hori Hoff. intros HM P. eexists. eapply point_ok; eassumption. Qed.
Lemma loop_exists of k : holds_m g Om of -> forall alpha iter s, (Z.to_nat (nadapt_iter_max - iter) <= k)%nat -> exists alpha' found iter' s',
  ad_loop g ord surf_sched bk ix first der ori off of alpha iter s alpha' found iter' s'.
Proof using Hv Ho Hs Hb Hix HD Hori Hoff.
  intros HM. induction k as [|k IH]; intros alpha iter s Hk;
    (destruct (point_exists Om alpha {| fixed_conf := fixed_conf s; fixer := field_copy g ord (fixer s) of |}) as (s1 & F1 & P1); [cbn [fixer]; now apply copy_holds|];
     destruct (fun H => point_fixer Om alpha _ s1 F1 H P1) as [M1 H1]; [cbn [fixer]; now apply copy_holds|]; destruct (point_exists M1 alpha s1 H1) as (s2 & F2 & P2);
     destruct (ad_decide alpha 0 F1 F2) as [[a' fo] gu] eqn:E; assert (HT : ad_trial g ord surf_sched bk ix first der ori off of alpha s s2 F1 F2) by (exists s1; now split);
     destruct (fo || gu || (nadapt_iter_max <=? iter + 1))%bool eqn:C; [do 4 eexists; eapply ad_end; eassumption|]).
  - exfalso. apply Bool.orb_false_iff in C as [_ C]. apply Z.leb_gt in C. unfold nadapt_iter_max in *. lia.
  - destruct (IH a' (iter + 1) s2) as (a'' & f'' & i'' & s'' & L); [apply Bool.orb_false_iff in C as [_ C]; apply Z.leb_gt in C; unfold nadapt_iter_max in *; lia|]. exists a'', f'', i'', s''. eapply ad_more; eassumption.
Qed.
End A.

(** C89: the search leaves the transformation as it was, and needs from 1 to 15 trials.  Either it gives up: the default length is returned, and one more failure is counted;
    or it returns the place of the minimum of the parabola through the changes of the functional at 0 and after one and two steps of a length which is within 5% of it,
    and the failures counted are reset *)
Theorem C89_search :
  forall g ord surf_sched bk ix first der D U ori Om off buf alpha_def s nskipped alpha nskipped' s' n,
  valid_grid g = true -> any_order ord -> surface_order g surf_sched -> launchable g bk -> distinct_addresses ix (locVol g) 1 ->
  at_sites g D der -> holds g U ori -> holds_m g Om (fixer s) -> reached_offset g U Om first off ->
  adapt_alpha g ord surf_sched bk ix first der ori off buf alpha_def s nskipped alpha nskipped' s' n ->
  holds_m g Om (fixer s') /\ 1 <= n <= 15 /\
  ((alpha = alpha_def /\ nskipped' = nskipped + 1) \/
   (nskipped' = 0 /\ exists a0, (Rabs (alpha - a0) < 5 / 100 * Rabs a0)%R /\
      minimum_of_parabola a0 (landscape (glbSize g) U Om D first 1 a0) (landscape (glbSize g) U Om D first 2 a0) alpha)).
Proof.
  intros g ord ss bk ix first der D U ori Om off buf ad s nsk alpha nsk' s' n Hv Ho Hs Hb Hi HD Hori HO Hoff (a1 & found & s1 & L & -> & -> & ->).
  pose proof (copy_holds g ord Ho Om buf (fixer s) HO) as HC. cbn [fixer]. split; [now apply copy_holds|].
  destruct (loop_ok g Hv ord Ho ss Hs bk Hb ix Hi first der D HD U ori Hori Om off Hoff _ _ _ _ _ _ _ _ L HC) as [A B]; [unfold nadapt_iter_max; lia|].
  unfold nadapt_iter_max in A. split; [lia|]. destruct found; [right; split; [reflexivity|now apply B]|left; now split].
Qed.
Print Assumptions C89_search.

(** C89: it always returns *)
Theorem C89_returns :
  forall g ord surf_sched bk ix first der D U ori Om off buf alpha_def s nskipped,
  valid_grid g = true -> any_order ord -> surface_order g surf_sched -> launchable g bk -> distinct_addresses ix (locVol g) 1 ->
  at_sites g D der -> holds g U ori -> holds_m g Om (fixer s) -> reached_offset g U Om first off ->
  exists alpha nskipped' s' n, adapt_alpha g ord surf_sched bk ix first der ori off buf alpha_def s nskipped alpha nskipped' s' n.
Proof.
  intros g ord ss bk ix first der D U ori Om off buf ad s nsk Hv Ho Hs Hb Hi HD Hori HO Hoff.
  destruct (loop_exists g Hv ord Ho ss Hs bk Hb ix Hi first der D HD U ori Hori Om off Hoff (field_copy g ord buf (fixer s)) (Z.to_nat (nadapt_iter_max - 0)) (copy_holds g ord Ho Om buf (fixer s) HO) ad 0 s)
    as (a' & f' & i' & s' & L); [lia|]. do 4 eexists. exists a', f', s'. repeat split. exact L.
Qed.
Print Assumptions C89_returns.

(** C89: where the functional is a parabola A t^2 + B t the first trial, of whatever length, jumps to its minimum, and the second one accepts it *)
Theorem C89_parabola :
  forall A B alpha, (/ 10 ^ 14 < A -> B <> 0 -> alpha <> 0 -> let y := fun t => A * (t * t) + B * t in let v := - B / (2 * A) in
  (exists found, ad_decide alpha 0 (y alpha) (y (2 * alpha)) = (v, found, false)) /\ ad_decide v 0 (y v) (y (2 * v)) = (v, true, false))%R.
Proof.
  intros A B alpha HA HB Ha y v. assert (A0 : (0 < A)%R) by (eapply Rlt_trans; [|exact HA]; apply Rinv_0_lt_compat, pow_lt; lra).
  assert (K : forall t, t <> 0%R -> exists found, ad_decide t 0 (y t) (y (2 * t)%R) = (v, found, false) /\ (t = v -> found = true)).
  { intros t Ht. unfold ad_decide. destruct (Req_EM_T t 0) as [|_]; [contradiction|].
    assert (E1 : ((y (2 * t) - 2 * y t + 0) / (2 * (t * t)) = A)%R) by (unfold y; field; exact Ht). assert (E2 : ((4 * y t - y (2 * t) - 3 * 0) / (2 * t) = B)%R) by (unfold y; field; exact Ht).
    rewrite E1, E2. destruct (Rlt_dec (/ 10 ^ 14) A) as [_|N]; [|contradiction]. eexists. split; [reflexivity|]. fold v. intros ->.
    destruct (Rlt_dec (Rabs v) (Rabs (2 * v))) as [_|N1].
    - replace (v / v - 1)%R with 0%R by (field; exact Ht). rewrite Rabs_R0. destruct (Rlt_dec 0 (5 / 100)) as [_|N2]; [reflexivity|lra].
    - exfalso. apply N1. rewrite Rabs_mult, (Rabs_right 2) by lra. assert (0 < Rabs v)%R by now apply Rabs_pos_lt. lra. }
  assert (V0 : v <> 0%R). { unfold v. intros E. apply HB. assert (E' : (- B / (2 * A) * (2 * A) = 0)%R) by (rewrite E; ring). field_simplify in E'; lra. }
  split; [destruct (K alpha Ha) as (f & E & _); now exists f|]. destruct (K v V0) as (f & E & T). now rewrite (T eq_refl) in E.
Qed.
Print Assumptions C89_parabola.

(** *** Example: the 4x4x2x2 lattice on four ranks, from the configuration itself *)
Definition ex_off (r i : Z) : R := match glbCoordOfLoclx (rank_labels st_grid r) i with Some x => (- lsum (fun mu => re_tr (transformed (glbSize st_grid) (fun _ => mid) gx_link x mu)) (fixed_dirs 0))%R | None => 0%R end.
Example C89_ex : exists alpha nskipped' s' n,
  adapt_alpha st_grid st_ord st_surf (fun _ => ParModel.OpenMP) (fun i d => i + d) 0 (fun r i => turn_gen) gx_conf
    ex_off
    (fun _ _ => None) 1%R {| fixed_conf := gx_conf; fixer := fun _ _ => Some mid |} 2 alpha nskipped' s' n /\ (nskipped' = 0 \/ (nskipped' = 3 /\ alpha = 1%R)).
Proof.
  assert (HD : at_sites st_grid (fun _ => turn_gen) (fun _ _ => turn_gen)) by (intros r i x _ _ _; reflexivity).
  assert (HM : holds_m st_grid (fun _ => mid) (fun _ _ => Some mid)) by (intros r i x _ _ _; reflexivity).
  assert (HF : reached_offset st_grid gx_link (fun _ => mid) 0 ex_off) by (intros r i x _ _ Hx; unfold ex_off; now rewrite Hx).
  assert (Hb : launchable st_grid (fun _ => ParModel.OpenMP)) by (intros k Hk; split; [lia|exact I]).
  assert (Hi : distinct_addresses (fun i d => i + d) (locVol st_grid) 1) by (intros i d j e; intros; split; lia).
  destruct (C89_returns st_grid st_ord st_surf (fun _ => ParModel.OpenMP) (fun i d => i + d) 0 (fun _ _ => turn_gen) (fun _ => turn_gen) gx_link gx_conf (fun _ => mid) ex_off (fun _ _ => None) 1%R
    {| fixed_conf := gx_conf; fixer := fun _ _ => Some mid |} 2 eq_refl st_ord_ok st_surf_ok Hb Hi HD gx_holds HM HF) as (a & k & s' & n & R).
  exists a, k, s', n. split; [exact R|].
  destruct (C89_search st_grid st_ord st_surf (fun _ => ParModel.OpenMP) (fun i d => i + d) 0 (fun _ _ => turn_gen) (fun _ => turn_gen) gx_link gx_conf (fun _ => mid) ex_off (fun _ _ => None) 1%R
    {| fixed_conf := gx_conf; fixer := fun _ _ => Some mid |} 2 a k s' n eq_refl st_ord_ok st_surf_ok Hb Hi HD gx_holds HM HF R) as (_ & _ & [[A B]|[A _]]); [right; now split|now left].
Qed.
