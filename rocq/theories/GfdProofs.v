(** Proofs about GfdModel. *)
From Coq Require Import Reals Lra Lia.
From Coquelicot Require Import Coquelicot.
From Verif Require Import Base GeometryModel GeometrySpec GeoMiscModel HaloModel HaloProofs EoModel ReduceSpec StapleModel StapleSpec StapleProofs Prop_Staple
  CplxModel MatModel MatSpec MatProofs MatProofs2 MatProofs3 MatProofs4 MatAlg OwnerProofs ChecksumSpec ChecksumMain StapleMain GaugeModel GaugeSpec GaugeProofs GaugeAlg GaugeForce GaugeExist Prop_Gauge
  IldgProofs ExpSmall GfixModel GfixSpec GfixProofs GfixAlg GfixMain GfixStep GfixExist Prop_Gfix UnitSpec UnitModel UnitMain Prop_Unit GfdModel.
From Verif Require ParModel ParSpec.
Set Bullet Behavior "Strict Subproofs".
Open Scope Z_scope.

Lemma fold_once (h : Z -> option cmat -> option cmat) l : NoDup l -> forall f j,
  fold_left (fun f i => mat_put f i (h i (f i))) l f j = if in_dec Z.eq_dec j l then h j (f j) else f j.
Proof.
  induction l as [|a l IH]; intros ND f j; [reflexivity|]. apply NoDup_cons_iff in ND as [NI ND]. cbn [fold_left]. rewrite IH by exact ND.
  destruct (in_dec Z.eq_dec j l) as [I|I], (in_dec Z.eq_dec j (a :: l)) as [I'|I'].
  - unfold mat_put. destruct (Z.eqb_spec j a) as [->|]; [contradiction|reflexivity].
  - exfalso. apply I'. now right.
  - destruct I' as [->|]; [|contradiction]. unfold mat_put. now rewrite Z.eqb_refl.
  - unfold mat_put. destruct (Z.eqb_spec j a) as [->|]; [exfalso; apply I'; now left|reflexivity].
Qed.

Section D.
Context (g : grid) (Hv : valid_grid g = true).
Context (ord : Z -> nat -> nat -> nat -> Z -> Z -> list Z) (Ho : any_order ord) (surf_sched : Z -> list Z) (Hs : surface_order g surf_sched).
Context (bk : Z -> ParModel.backend) (Hb : launchable g bk) (ix : Z -> Z -> Z) (Hix : distinct_addresses ix (locVol g) 1) (w : cmat).
Context (pars : lc_pars) (U : list Z -> nat -> cmat) (ext : Z -> @qfield cmat) (Hext : holds g U ext).
Context (P : cmat -> Prop).
Context (Pmove : forall iter s r i M, 0 <= r < nranks g -> 0 <= i < locVol g -> P M -> P (add_current_transformation (moves (method pars) iter s r i) M)).
Context (Punit : forall M n out, P M -> unitarize_explicitly_inverting M (/ 10 ^ 15) n out -> P out).
Context (Pinv : forall M, P M -> det M <> RtoC 0).

(** the transformation on the sites of the ranks *)
Definition fix_ok (f : Z -> mfield) : Prop := forall r i, 0 <= r < nranks g -> 0 <= i < locVol g -> exists M, f r i = Some M /\ P M.
Lemma add_at gm r f i : 0 <= i < locVol g -> add_current g ord gm r f i = option_map (add_current_transformation (gm i)) (f i).
Proof using Ho.
  intros Hi. unfold add_current, PAR. destruct (Ho r 23%nat 0%nat 0%nat 0 (locVol g)) as [N I].
  rewrite (fold_once (fun i x => option_map (add_current_transformation (gm i)) x) _ N). destruct (in_dec Z.eq_dec i _) as [|K]; [reflexivity|]. exfalso. apply K. now apply I.
Qed.
Lemma start_at f0 r i : 0 <= i < locVol g -> start_fixer g ord w f0 r i = Some (mat (su3_put_to_id a_out (args w w w)) a_out).
Proof using Ho.
  intros Hi. unfold start_fixer, PAR. destruct (Ho r 24%nat 0%nat 0%nat 0 (locVol g)) as [N I].
  rewrite (fold_once (fun i _ => Some (mat (su3_put_to_id a_out (args w w w)) a_out)) _ N). destruct (in_dec Z.eq_dec i _) as [|K]; [reflexivity|]. exfalso. apply K. now apply I.
Qed.
Lemma start_id : meq (mat (su3_put_to_id a_out (args w w w)) a_out) mid.
Proof. clear. destruct (su3_put_to_id_ok a_out (args w w w)) as [A _]. exact A. Qed.
Lemma gather_m f : fix_ok f -> exists Om, holds_m g Om f /\ forall x, in_box x (glbSize g) -> P (Om x).
Proof using Hv.
  clear Pmove Punit Pinv Hext Hix Hb Hs Ho. intros F. exists (fun x => let '(r, i) := getLoclxAndRankOfCoords g x in match f r i with Some v => v | None => mid end). split.
  - intros q i x Hq Hi Hx. destruct (site_coords g q i Hv Hq Hi) as (y & Ey & By & Gy). assert (y = x) by (unfold IldgModel.glb_coords, rank_labels in *; congruence). subst y. rewrite Gy.
    destruct (F q i Hq Hi) as (v & -> & _). reflexivity.
  - intros x Hx. destruct (getLoclxAndRankOfCoords g x) as [r i] eqn:E. destruct (owner_site g Hv x r i Hx E) as (Hr & Hi & _). destruct (F r i Hr Hi) as (v & -> & Pv). exact Pv.
Qed.
(** the transformation of the external configuration *)
Definition image (Om : list Z -> cmat) (s : lc_state) : Prop := holds_m g Om (fixer s) /\ exists V, holds g V (fixed_conf s) /\ same_links (glbSize g) V (transformed (glbSize g) Om U).
Lemma apply_exists f u0 : fix_ok f -> exists s, (forall r, 0 <= r < nranks g -> gauge_transform_conf g ord surf_sched u0 f (Some ext) r = Some (fixed_conf s r, fixer s r)).
Proof using Hv Ho Hs Hext.
  clear Pmove Punit Pinv. intros F. destruct (gather_m f F) as (Om & HO & _). destruct (C85_transform g ord surf_sched Om f U ext u0 false Hv Ho Hs HO Hext) as (c & m & U' & K & _); [discriminate|].
  exists {| fixed_conf := c; fixer := m |}. intros r Hr. now apply K.
Qed.
Lemma apply_ok f u0 s Om : holds_m g Om f -> (forall r, 0 <= r < nranks g -> gauge_transform_conf g ord surf_sched u0 f (Some ext) r = Some (fixed_conf s r, fixer s r)) ->
  image Om s /\ forall r i, 0 <= r < nranks g -> 0 <= i < locVol g -> fixer s r i = f r i.
Proof using Hv Ho Hs Hext.
  clear Pmove Punit Pinv P. intros HO E. destruct (C85_transform g ord surf_sched Om f U ext u0 false Hv Ho Hs HO Hext) as (c & m & U' & K & H1 & H2); [discriminate|].
  assert (Q : forall r, 0 <= r < nranks g -> c r = fixed_conf s r /\ m r = fixer s r /\ forall i, 0 <= i < locVol g -> m r i = f r i).
  { intros r Hr. destruct (K r Hr) as (E' & _ & E2). pose proof (eq_trans (eq_sym (E r Hr)) E') as E3. injection E3 as -> ->. now repeat split. }
  assert (FX : forall r i, 0 <= r < nranks g -> 0 <= i < locVol g -> fixer s r i = f r i) by (intros r i Hr Hi; destruct (Q r Hr) as (_ & <- & Z0); now apply Z0).
  split; [|exact FX]. split.
  - intros q i x Hq Hi Hx. rewrite FX by assumption. now apply HO.
  - exists U'. split; [|exact H2]. intros q i x mu Hq Hi Hx Hmu. destruct (Q q Hq) as (<- & _). now apply H1.
Qed.
Lemma step_fix iter s s' : fix_ok (fixer s) -> lc_step g ord surf_sched pars ext iter s s' -> fix_ok (fixer s') /\
  (match method pars with EXPONENTIATE _ _ => exists V, holds g V (fixed_conf s') | OVERRELAX _ sweep => fixed_conf s' = sweep iter s end).
Proof using Hv Ho Hs Hext Pmove.
  clear Punit Pinv. intros F K. unfold lc_step in K. set (f := fun r => add_current g ord (moves (method pars) iter s r) r (fixer s r)) in *.
  assert (FF : fix_ok f).
  { intros r i Hr Hi. destruct (F r i Hr Hi) as (M & E & PM). unfold f. rewrite add_at, E by exact Hi. eexists. split; [reflexivity|]. now apply Pmove. }
  destruct (method pars) as [dir al|rot sw].
  - destruct (gather_m f FF) as (Om & HO & _). destruct (apply_ok f _ s' Om HO K) as [[_ (V & HV & _)] E2]. split; [|now exists V]. intros r i Hr Hi. rewrite E2 by assumption. now apply FF.
  - destruct K as [E1 E2]. split; [rewrite E2; exact FF|exact E1].
Qed.
Lemma inner_fix iter s iter' s' : lc_inner g ord surf_sched bk ix w pars ext iter s iter' s' -> fix_ok (fixer s) ->
  fix_ok (fixer s') /\ iter < iter' /\ (iter' <= iter + 1 \/ iter' <= nmaxIterations pars).
Proof using Hv Ho Hs Hext Pmove.
  induction 1 as [iter s s1 q St Q G|iter s s1 q iter' s' St Q G I IH]; intros F; destruct (step_fix iter s s1 F St) as [F1 _].
  - split; [exact F1|]. clear. lia.
  - destruct (IH F1) as (F' & L1 & L2). split; [exact F'|]. apply Bool.orb_false_iff in G as [G _]. apply Bool.orb_false_iff in G as [_ G]. apply Bool.negb_false_iff in G. apply Z.ltb_lt in G. clear - L1 L2 G. lia.
Qed.
Lemma unit_fix f f' : fix_ok f -> unitarize_fixer g f f' -> fix_ok f' /\ forall r i, 0 <= r < nranks g -> 0 <= i < locVol g -> exists M n out, P M /\ unitarize_explicitly_inverting M (/ 10 ^ 15) n out /\ f' r i = Some out.
Proof using Punit.
  intros F K. split.
  - intros r i Hr Hi. destruct (K r Hr) as [K1 _]. destruct (K1 i Hi) as (M & n & out & E & Un & E'). destruct (F r i Hr Hi) as (M' & E2 & PM). rewrite E in E2. injection E2 as <-. exists out. split; [exact E'|]. now apply (Punit M n).
  - intros r i Hr Hi. destruct (K r Hr) as [K1 _]. destruct (K1 i Hi) as (M & n & out & E & Un & E'). destruct (F r i Hr Hi) as (M' & E2 & PM). rewrite E in E2. injection E2 as <-. now exists M, n, out.
Qed.
(** what an iteration of the outer loop leaves *)
Definition left_ok (s : lc_state) : Prop := exists Om, image Om s /\ forall x, in_box x (glbSize g) -> P (Om x) /\ exists M n, det M <> RtoC 0 /\ unitarize_explicitly_inverting M (/ 10 ^ 15) n (Om x).
Lemma turn_ok f f' u0 s : fix_ok f -> unitarize_fixer g f f' -> (forall r, 0 <= r < nranks g -> gauge_transform_conf g ord surf_sched u0 f' (Some ext) r = Some (fixed_conf s r, fixer s r)) ->
  left_ok s /\ fix_ok (fixer s).
Proof using Hv Ho Hs Hext Punit Pinv.
  clear Pmove. intros F Un E. destruct (unit_fix f f' F Un) as [F' K]. destruct (gather_m f' F') as (Om & HO & POm). destruct (apply_ok f' u0 s Om HO E) as [I E2]. split.
  - exists Om. split; [exact I|]. intros x Hx. split; [now apply POm|]. destruct (getLoclxAndRankOfCoords g x) as [r i] eqn:Eo. destruct (owner_site g Hv x r i Hx Eo) as (Hr & Hi & Hg).
    destruct (K r i Hr Hi) as (M & n & out & PM & Uo & Ef). pose proof (HO r i x Hr Hi Hg) as E3. rewrite Ef in E3. injection E3 as <-. exists M, n. split; [now apply Pinv|exact Uo].
  - intros r i Hr Hi. rewrite E2 by assumption. now apply F'.
Qed.
Lemma outer_ok iter s iter' s' q : lc_outer g ord surf_sched bk ix w pars ext iter s iter' s' q -> fix_ok (fixer s) -> 
  left_ok s' /\ gauge_fixing_quality g surf_sched bk ix (fixed_conf s') (start_mu pars) w q /\ iter < iter' /\ (iter' <= iter + 1 \/ iter' <= nmaxIterations pars) /\
  ((q <= targetPrecision pars)%R \/ nmaxIterations pars <= iter').
Proof using Hv Ho Hs Hext Punit Pinv Pmove.
  induction 1 as [iter s iter1 s1 f s2 q I Un Tr Q G|iter s iter1 s1 f s2 q iter' s' q' I Un Tr Q G O IH]; intros F; destruct (inner_fix _ _ _ _ I F) as (F1 & L1 & L2); destruct (turn_ok _ _ _ _ F1 Un Tr) as [R2 F2].
  - split; [exact R2|]. split; [exact Q|]. split; [exact L1|]. split; [exact L2|]. apply Bool.orb_true_iff in G as [G|G]; [left; unfold gauge_fixed in G; destruct (Rle_dec q (targetPrecision pars)); [assumption|discriminate]|right].
    apply Bool.negb_true_iff in G. apply Z.ltb_ge in G. exact G.
  - destruct (IH F2) as (A & B & C & D & E). split; [exact A|]. split; [exact B|]. apply Bool.orb_false_iff in G as [_ G]. apply Bool.negb_false_iff in G. apply Z.ltb_lt in G. split; [clear - L1 C; lia|]. split; [clear - G C D; lia|exact E].
Qed.
(** *** the loops come to an end *)
Context (Hsweep : match method pars with EXPONENTIATE _ _ => True | OVERRELAX _ sweep => forall iter s, exists V, holds g V (sweep iter s) end).
Lemma step_exists iter s : fix_ok (fixer s) -> exists s', lc_step g ord surf_sched pars ext iter s s'.
Proof using Hv Ho Hs Hext Pmove.
  clear Punit Pinv Hsweep. intros F. unfold lc_step. set (f := fun r => add_current g ord (moves (method pars) iter s r) r (fixer s r)).
  assert (FF : fix_ok f).
  { intros r i Hr Hi. destruct (F r i Hr Hi) as (M & E & PM). unfold f. rewrite add_at, E by exact Hi. eexists. split; [reflexivity|]. now apply Pmove. }
  destruct (method pars) as [dir al|rot sw]; [now apply apply_exists|]. exists {| fixed_conf := sw iter s; fixer := f |}. now split.
Qed.
Lemma inner_exists k : forall iter s, (Z.to_nat (nmaxIterations pars - iter) <= k)%nat -> fix_ok (fixer s) -> exists iter' s', lc_inner g ord surf_sched bk ix w pars ext iter s iter' s'.
Proof using Hv Ho Hs Hext Pmove Hsweep Hix.
  induction k as [|k IH]; intros iter s Hk F; destruct (step_exists iter s F) as [s1 St]; destruct (step_fix iter s s1 F St) as [F1 C1];
    (assert (HV : exists V, holds g V (fixed_conf s1)) by (destruct (method pars); [exact C1|rewrite C1; apply Hsweep]); destruct HV as [V HV]; destruct (quality_exists g Hv surf_sched Hs V (fixed_conf s1) HV bk ix (start_mu pars) w Hix) as [q Q];
     destruct (gauge_fixed pars q || negb (iter + 1 <? nmaxIterations pars) || negb (Z.rem (iter + 1) (unitarizeEach pars) =? 0))%bool eqn:G; [exists (iter + 1), s1; eapply lc_inner_do; eassumption|]).
  - exfalso. apply Bool.orb_false_iff in G as [G _]. apply Bool.orb_false_iff in G as [_ G]. apply Bool.negb_false_iff in G. apply Z.ltb_lt in G. clear - G Hk. lia.
  - destruct (IH (iter + 1) s1) as (iter' & s' & I); [|exact F1|exists iter', s'; eapply lc_inner_again; eassumption].
    apply Bool.orb_false_iff in G as [G _]. apply Bool.orb_false_iff in G as [_ G]. apply Bool.negb_false_iff in G. apply Z.ltb_lt in G. clear - G Hk. lia.
Qed.
Lemma tol15 : (0 < / 10 ^ 15)%R. Proof. apply Rinv_0_lt_compat, pow_lt. lra. Qed.
Lemma unit_exists f : fix_ok f -> exists f', unitarize_fixer g f f'.
Proof using Pinv.
  clear Pmove Punit Hsweep. intros F.
  assert (ND : forall M, P M -> exists n out, unitarize_explicitly_inverting M (/ 10 ^ 15) n out).
  { intros M PM. apply (C87_returns M (UnitProofs.minv M) (/ 10 ^ 15)); [apply UnitProofs.minv_r, Pinv, PM|apply tol15]. }
  assert (CH : forall l : list (Z * Z), exists f' : Z -> mfield, (forall r i, In (r, i) l -> 0 <= r < nranks g -> 0 <= i < locVol g ->
      exists M n out, f r i = Some M /\ unitarize_explicitly_inverting M (/ 10 ^ 15) n out /\ f' r i = Some out) /\ forall r i, ~ In (r, i) l -> f' r i = f r i).
  { induction l as [|[r0 i0] l (f1 & A & B)]; [exists f; split; [intros r i []|reflexivity]|].
    destruct (f r0 i0) as [M|] eqn:E.
    - assert (Q : exists v, (0 <= r0 < nranks g -> 0 <= i0 < locVol g -> exists n out, unitarize_explicitly_inverting M (/ 10 ^ 15) n out /\ v = Some out)).
      { destruct (Z_le_dec 0 r0); [|exists None; intros []; contradiction]. destruct (Z_lt_dec r0 (nranks g)); [|exists None; intros []; contradiction].
        destruct (Z_le_dec 0 i0); [|exists None; intros _ []; contradiction]. destruct (Z_lt_dec i0 (locVol g)); [|exists None; intros _ []; contradiction].
        destruct (F r0 i0) as (M' & E' & PM); [now split|now split|]. rewrite E in E'. injection E' as <-. destruct (ND M PM) as (n & out & Un). exists (Some out). intros _ _. now exists n, out. }
      destruct Q as [v Q]. exists (fun r => if r =? r0 then mat_put (f1 r) i0 v else f1 r). split.
      + intros r i Hin Hr Hi. destruct (Z.eqb_spec r r0) as [->|Nr]; [unfold mat_put; destruct (Z.eqb_spec i i0) as [->|Ni]|].
        * destruct (Q Hr Hi) as (n & out & Un & ->). now exists M, n, out.
        * apply A; [|exact Hr|exact Hi]. destruct Hin as [Hin|Hin]; [congruence|exact Hin].
        * apply A; [|exact Hr|exact Hi]. destruct Hin as [Hin|Hin]; [congruence|exact Hin].
      + intros r i Hni. destruct (Z.eqb_spec r r0) as [->|Nr]; [unfold mat_put; destruct (Z.eqb_spec i i0) as [->|Ni]; [exfalso; apply Hni; now left|]|]; apply B; intros K; apply Hni; now right.
    - exists f1. split.
      + intros r i [Hin|Hin] Hr Hi; [|now apply A]. injection Hin as -> ->. destruct (F r i Hr Hi) as (M' & E' & _). congruence.
      + intros r i Hni. apply B. intros K. apply Hni. now right. }
  destruct (CH (list_prod (seqZ (nranks g)) (seqZ (locVol g)))) as (f' & A & B). exists f'. intros r Hr. split.
  - intros i Hi. apply A; [|exact Hr|exact Hi]. apply in_prod; now apply in_seqZ.
  - intros i Hi. apply B. intros K. apply Hi. apply in_prod_iff in K as [_ K]. now apply in_seqZ in K.
Qed.
Lemma outer_exists k : forall iter s, (Z.to_nat (nmaxIterations pars - iter) <= k)%nat -> fix_ok (fixer s) -> exists iter' s' q, lc_outer g ord surf_sched bk ix w pars ext iter s iter' s' q.
Proof using Hv Ho Hs Hext Pmove Hsweep Hix Punit Pinv.
  induction k as [|k IH]; intros iter s Hk F; (
    destruct (inner_exists _ iter s (Nat.le_refl _) F) as (iter1 & s1 & I); destruct (inner_fix _ _ _ _ I F) as (F1 & L1 & _); destruct (unit_exists _ F1) as [f' Un]; destruct (unit_fix _ _ F1 Un) as [F' _];
    destruct (apply_exists f' (fixed_conf s1) F') as [s2 Tr]; destruct (turn_ok _ _ _ _ F1 Un Tr) as [(Om & (_ & V & HV & _) & _) F2];
    destruct (quality_exists g Hv surf_sched Hs V (fixed_conf s2) HV bk ix (start_mu pars) w Hix) as [q Q];
    destruct (gauge_fixed pars q || negb (iter1 <? nmaxIterations pars))%bool eqn:G; [exists iter1, s2, q; eapply lc_outer_do; eassumption|]).
  - exfalso. apply Bool.orb_false_iff in G as [_ G]. apply Bool.negb_false_iff in G. apply Z.ltb_lt in G. clear - G Hk L1. lia.
  - destruct (IH iter1 s2) as (iter' & s' & q' & O); [|exact F2|exists iter', s', q'; eapply lc_outer_again; eassumption].
    apply Bool.orb_false_iff in G as [_ G]. apply Bool.negb_false_iff in G. apply Z.ltb_lt in G. clear - G Hk L1. lia.
Qed.
End D.
