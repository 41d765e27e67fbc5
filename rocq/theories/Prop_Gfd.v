(** C88: the whole procedure of gauge fixing. *)
From Coq Require Import Reals Lra Lia.
From Coquelicot Require Import Coquelicot.
From Verif Require Import Base GeometryModel GeometrySpec GeoMiscModel HaloModel HaloProofs EoModel EoProofs ReduceSpec StapleModel StapleSpec StapleProofs Prop_Staple
  CplxModel MatModel MatSpec MatProofs MatAlg OwnerProofs ChecksumSpec ChecksumMain StapleMain IldgProofs GaugeModel GaugeSpec GaugeProofs GaugeAlg GaugeForce Prop_Gauge
  GfixModel GfixSpec GfixProofs Prop_Gfix UnitSpec UnitModel UnitProofs UnitMain Prop_Unit GfdModel GfdProofs OvrModel.
From Verif Require ParModel ParSpec.
Set Bullet Behavior "Strict Subproofs".
Open Scope Z_scope.

(** no iteration multiplies the transformation by a singular matrix *)
Definition regular (pars : lc_pars) : Prop := forall iter s r i, exists J, inverse_of J (moves (method pars) iter s r i).
(** the sweeps of the overrelaxing method leave some matrix on every link *)
Definition sweeps_defined (g : grid) (pars : lc_pars) : Prop :=
  match method pars with EXPONENTIATE _ _ => True | OVERRELAX _ sweep => forall iter s, exists V, holds g V (sweep iter s) end.

Lemma regular_move pars : regular pars -> forall iter s r i M, det M <> RtoC 0 -> det (add_current_transformation (moves (method pars) iter s r i) M) <> RtoC 0.
Proof.
  intros HR iter s r i M D. rewrite (det_proper _ _ (add_current_ok _ _)), det_mul. destruct (HR iter s r i) as [J HJ]. destruct (minv_unique _ _ HJ) as [D' _]. now apply Cmult_neq_0.
Qed.
Lemma unit_regular M n out : det M <> RtoC 0 -> unitarize_explicitly_inverting M (/ 10 ^ 15) n out -> det out <> RtoC 0.
Proof.
  intros D Un. destruct (C87_special_unitary M (minv M) (/ 10 ^ 15) n out) as [E _]; [apply minv_r, D| |exact Un|rewrite E; intros K; apply (f_equal fst) in K; unfold RtoC in K; cbn [fst] in K; lra].
  split; [apply tol15|]. apply Rinv_le_contravar; [lra|]. replace 10%R with (10 ^ 1)%R at 1 by ring. apply Rle_pow; [lra|lia].
Qed.
Lemma tol15_small : (0 < / 10 ^ 15 <= / 10)%R.
Proof. split; [apply tol15|]. apply Rinv_le_contravar; [lra|]. replace 10%R with (10 ^ 1)%R at 1 by ring. apply Rle_pow; [lra|lia]. Qed.
Lemma det_mid : det mid = RtoC 1. Proof. unfold det, mid. cbn [Nat.eqb]. ring. Qed.

(** C88: what is returned is the given configuration seen from other bases: one transformation for the whole lattice, of determinant 1 and unitary up to 13 10^-30; the precision
    reported is the quality of what is returned, and it is within the target unless the iterations have been used up; at least one is done, and no more than allowed *)
Theorem C88_fixes :
  forall g ord surf_sched bk ix w pars U ext f0 iter s prec, valid_grid g = true -> any_order ord -> surface_order g surf_sched -> holds g U ext -> regular pars ->
  Landau_or_Coulomb_gauge_fix g ord surf_sched bk ix w pars ext f0 iter s prec ->
  (exists Om V, holds g V (fixed_conf s) /\ same_links (glbSize g) V (transformed (glbSize g) Om U) /\
     forall x, in_box x (glbSize g) -> det (Om x) = RtoC 1 /\ near (13 * (/ 10 ^ 15 * / 10 ^ 15)) (mmul (Om x) (dag (Om x))) mid) /\
  gauge_fixing_quality g surf_sched bk ix (fixed_conf s) (start_mu pars) w prec /\
  ((prec <= targetPrecision pars)%R \/ nmaxIterations pars <= iter) /\ 1 <= iter <= Z.max 1 (nmaxIterations pars).
Proof.
  intros g ord ss bk ix w pars U ext f0 iter s prec Hv Ho Hs He HR Run.
  destruct (outer_ok g Hv ord Ho ss Hs bk ix w pars U ext He (fun M => det M <> RtoC 0)) with (iter := 0) (s := {| fixed_conf := ext; fixer := start_fixer g ord w f0 |}) (iter' := iter) (s' := s) (q := prec) as (A & B & C & D & E).
  - intros it st r i M _ _ DM. now apply regular_move.
  - exact unit_regular.
  - intros M H. exact H.
  - exact Run.
  - intros r i Hr Hi. cbn [fixer]. eexists. split; [now apply start_at|]. rewrite (det_proper _ _ (start_id w)), det_mid. intros K. apply (f_equal fst) in K. unfold RtoC in K. cbn [fst] in K. lra.
  - destruct A as (Om & (HO & V & HV & HL) & K). split; [|split; [exact B|split; [exact E|clear - C D; lia]]]. exists Om, V. split; [exact HV|]. split; [exact HL|].
    intros x Hx. destruct (K x Hx) as (_ & M & n & DM & Un). exact (C87_special_unitary M (minv M) _ n (Om x) (minv_r M DM) tol15_small Un).
Qed.
Print Assumptions C88_fixes.

(** C88: when the matrices of the steps are in SU(3) the transformation is so too, exactly *)
Theorem C88_gauge_orbit :
  forall g ord surf_sched bk ix w pars U ext f0 iter s prec, valid_grid g = true -> any_order ord -> surface_order g surf_sched -> holds g U ext ->
  (forall iter s r i, special_unitary (moves (method pars) iter s r i)) ->
  Landau_or_Coulomb_gauge_fix g ord surf_sched bk ix w pars ext f0 iter s prec ->
  exists Om V, holds g V (fixed_conf s) /\ same_links (glbSize g) V (transformed (glbSize g) Om U) /\ forall x, in_box x (glbSize g) -> special_unitary (Om x).
Proof.
  intros g ord ss bk ix w pars U ext f0 iter s prec Hv Ho Hs He HR Run.
  assert (PR : forall x y, meq x y -> special_unitary y -> special_unitary x).
  { intros x y E [A B]. split; [|now rewrite (det_proper _ _ E)]. unfold unitary in *. now rewrite E. }
  assert (ND : forall M, special_unitary M -> det M <> RtoC 0).
  { intros M [_ ->] K. apply (f_equal fst) in K. unfold RtoC in K. cbn [fst] in K. lra. }
  destruct (outer_ok g Hv ord Ho ss Hs bk ix w pars U ext He special_unitary) with (iter := 0) (s := {| fixed_conf := ext; fixer := start_fixer g ord w f0 |}) (iter' := iter) (s' := s) (q := prec) as (A & _).
  - intros it st r i M _ _ SM. apply (PR _ _ (add_current_ok _ _)). apply su_mul; [apply HR|exact SM].
  - intros M n out SM Un. destruct (C87_fixed_points M (/ 10 ^ 15) SM tol15) as (out' & Un' & E'). destruct (C87_returns M (minv M) (/ 10 ^ 15) (minv_r M (ND M SM)) tol15) as [_ Q].
    destruct (Q _ _ _ _ Un Un') as [_ E]. apply (PR _ M); [now rewrite E|exact SM].
  - exact ND.
  - exact Run.
  - intros r i Hr Hi. cbn [fixer]. eexists. split; [now apply start_at|]. apply (PR _ _ (start_id w)). apply su_1.
  - destruct A as (Om & (HO & V & HV & HL) & K). exists Om, V. split; [exact HV|]. split; [exact HL|]. intros x Hx. now apply K.
Qed.
Print Assumptions C88_gauge_orbit.

(** C88: and the plaquettes reported are those of the given configuration *)
Theorem C88_plaquette :
  forall g ord surf_sched bk ix ix2 w pars U ext f0 iter s prec, valid_grid g = true -> any_order ord -> surface_order g surf_sched -> launchable g bk -> distinct_addresses ix2 (locVol g) 2 -> holds g U ext ->
  (forall iter s r i, special_unitary (moves (method pars) iter s r i)) ->
  Landau_or_Coulomb_gauge_fix g ord surf_sched bk ix w pars ext f0 iter s prec ->
  forall tot tot', global_plaquette_lx_conf g surf_sched bk ix2 ext tot -> global_plaquette_lx_conf g surf_sched bk ix2 (fixed_conf s) tot' -> tot 0%nat = tot' 0%nat /\ tot 1%nat = tot' 1%nat.
Proof.
  intros g ord ss bk ix ix2 w pars U ext f0 iter s prec Hv Ho Hs Hb Hi2 He HR Run tot tot' P1 P2.
  destruct (C88_gauge_orbit g ord ss bk ix w pars U ext f0 iter s prec Hv Ho Hs He HR Run) as (Om & V & HV & HL & HO).
  set (gm := fun r i => option_map Om (glbCoordOfLoclx (rank_labels g r) i)). assert (HM : holds_m g Om gm) by (intros q i x _ _ Hx; unfold gm; now rewrite Hx).
  destruct (C85_transform g ord ss Om gm U ext (fixed_conf s) false Hv Ho Hs HM He) as (c & m & U' & K & H1 & H2); [discriminate|].
  assert (HU : forall x, in_box x (glbSize g) -> unitary (Om x)) by (intros x Hx; now apply HO).
  destruct (C83_plaquette g ss bk ix2 U' c Hv Hs Hb Hi2 H1) as [[tc Pc] Vc].
  destruct (C85_plaquette g ord ss bk ix2 Om gm U ext (fixed_conf s) false Hv Ho Hs Hb Hi2 HM He (fun e => ltac:(discriminate)) HU c m tot tc (fun r Hr => proj1 (K r Hr)) P1 Pc) as [-> ->].
  destruct (Vc tc Pc) as [-> ->]. destruct (C83_plaquette g ss bk ix2 V (fixed_conf s) Hv Hs Hb Hi2 HV) as [_ V']. destruct (V' tot' P2) as [-> ->].
  assert (W : forall l, (forall p, In p l -> (fst p < 4 /\ snd p < 4)%nat) -> mean_plaquette (glbSize g) U' l = mean_plaquette (glbSize g) V l).
  { intros l Hl. unfold mean_plaquette. f_equal. apply lsum_ext. intros x Hx. apply in_all_coords in Hx. apply lsum_ext. intros p Hp. destruct (Hl p Hp) as [L1 L2].
    assert (L4 : length (glbSize g) = 4%nat) by (apply IldgProofs.glb_len; exact Hv).
    assert (HH : same_links (glbSize g) U' V) by (intros y nu Hy Hnu; rewrite (H2 y nu Hy Hnu); symmetry; now apply HL).
    f_equal. unfold re_tr. f_equal. apply trace_proper. unfold plaquette.
    assert (Hxm : in_box (step (glbSize g) x (fst p)) (glbSize g)) by (apply shift_in_box; [exact Hx|lia]). assert (Hxn : in_box (step (glbSize g) x (snd p)) (glbSize g)) by (apply shift_in_box; [exact Hx|lia]).
    now rewrite (HH x (fst p) Hx L1), (HH x (snd p) Hx L2), (HH _ (snd p) Hxm L2), (HH _ (fst p) Hxn L1). }
  split; apply W; intros p Hp; cbn in Hp; intuition (subst; cbn; lia).
Qed.
Print Assumptions C88_plaquette.

(** C88: whatever the methods choose, it returns *)
Theorem C88_returns :
  forall g ord surf_sched bk ix w pars U ext f0, valid_grid g = true -> any_order ord -> surface_order g surf_sched -> distinct_addresses ix (locVol g) 1 -> holds g U ext ->
  regular pars -> sweeps_defined g pars -> exists iter s prec, Landau_or_Coulomb_gauge_fix g ord surf_sched bk ix w pars ext f0 iter s prec.
Proof.
  intros g ord ss bk ix w pars U ext f0 Hv Ho Hs Hix He HR Sw. unfold Landau_or_Coulomb_gauge_fix.
  apply (outer_exists g Hv ord Ho ss Hs bk ix Hix w pars U ext He (fun M => det M <> RtoC 0)) with (k := Z.to_nat (nmaxIterations pars - 0)).
  - intros it st r i M _ _ DM. now apply regular_move.
  - exact unit_regular.
  - intros M H. exact H.
  - exact Sw.
  - reflexivity.
  - intros r i Hr Hi. cbn [fixer]. eexists. split; [now apply start_at|]. rewrite (det_proper _ _ (start_id w)), det_mid. intros K. apply (f_equal fst) in K. unfold RtoC in K. cbn [fst] in K. lra.
Qed.
Print Assumptions C88_returns.

(** C88: UnitarizeEach does not count the iterations between two unitarisations: from 2 on, there are never more than two iterations between them *)
Theorem C88_unitarize_each :
  forall g ord surf_sched bk ix w pars ext iter s iter' s', 2 <= unitarizeEach pars -> lc_inner g ord surf_sched bk ix w pars ext iter s iter' s' -> iter' <= iter + 2.
Proof.
  intros g ord ss bk ix w pars ext iter s iter' s' H2 I.
  assert (IN : iter' = iter + 1 \/ exists s1, Z.rem (iter + 1) (unitarizeEach pars) = 0 /\ lc_inner g ord ss bk ix w pars ext (iter + 1) s1 iter' s').
  { inversion I; subst; [now left|]. right. exists s1. split; [|assumption]. match goal with G : _ = false |- _ => apply Bool.orb_false_iff in G as [_ G]; apply Bool.negb_false_iff, Z.eqb_eq in G; exact G end. }
  destruct IN as [->|(s1 & R1 & J)]; [lia|].
  inversion J; subst; [lia|]. exfalso. match goal with G : _ = false |- _ => apply Bool.orb_false_iff in G as [_ G]; apply Bool.negb_false_iff, Z.eqb_eq in G; rename G into R2 end.
  apply Z.rem_divide in R1; [|lia]. apply Z.rem_divide in R2; [|lia]. assert (D : (unitarizeEach pars | 1)) by (replace 1 with (iter + 1 + 1 - (iter + 1)) by ring; now apply Z.divide_sub_r).
  apply Z.divide_1_r in D. lia.
Qed.
Print Assumptions C88_unitarize_each.

(** ** the sweep of the overrelaxing method is not a gauge transformation *)
Definition ov_grid : grid := mkGrid [2; 2; 2; 2] [1; 1; 1; 1].
Definition ov_link (x : list Z) (mu : nat) : cmat := if list_eq_dec Z.eq_dec x [1; 0; 0; 0] then (if Nat.eqb mu 0 then turn 1 else mid) else mid.
Definition ov_conf (i : Z) (mu : nat) : option cmat := option_map (fun x => ov_link x mu) (glbCoordOfLoclx (rank_labels ov_grid 0) i).

Lemma ov_gc g r i x : IldgModel.glb_coords g r i = Some x -> glbCoordOfLoclx (rank_labels g r) i = Some x.
Proof. intros H. exact H. Qed.
(** the links of the sites are one, but that of the site 8 in direction 0 when [full] is false *)
Definition ov_inv (full : bool) (s : @qfield cmat) : Prop := forall i mu, 0 <= i < 16 -> (mu < 4)%nat -> exists v, s i mu = Some v /\ (full = true \/ i <> 8 \/ mu <> 0%nat -> meq v mid).
Definition ov_write (gx : cmat) (x : Z) (u : @qfield cmat) (mu : nat) : @qfield cmat :=
  match dw ov_grid 0 x mu with Some b => link_put u b mu (op2 su3_prod_dag (op2 su3_prod (Some gx) (u x mu)) (Some gx)) | None => u end.
Lemma ov_write_ok gx x mu s full : unitary gx -> 0 <= x < 16 -> (mu < 4)%nat -> (full = true \/ x <> 8) -> ov_inv full s -> ov_inv full (ov_write gx x s mu) /\ (x = 0 -> mu = 0%nat -> ov_inv true (ov_write gx x s mu)).
Proof.
  intros Ug Hx Hmu Hf A. unfold ov_write. destruct (dw ov_grid 0 x mu) as [b|] eqn:Eb.
  - destruct (A x mu Hx Hmu) as (v & Ev & Mv). rewrite Ev. cbn [op2]. assert (W : meq (su3_prod_dag (su3_prod gx v) gx) mid).
    { rewrite su3_prod_dag_ok, su3_prod_ok, Mv by tauto. rewrite mmul_1_r. exact Ug. }
    split.
    + intros i nu Hi Hnu. unfold link_put. destruct ((i =? b) && Nat.eqb nu mu)%bool; [eexists; split; [reflexivity|intros _; exact W]|now apply A].
    + intros -> ->. assert (b = 8) by (vm_compute in Eb; congruence). subst b. intros i nu Hi Hnu. unfold link_put. destruct (Z.eqb_spec i 8) as [->|N], (Nat.eqb_spec nu 0) as [->|N'];
        cbn [andb]; try (eexists; split; [reflexivity|intros _; exact W]); (edestruct (A _ _ Hi Hnu) as (v' & E' & M'); exists v'; split; [exact E'|intros _; apply M'; tauto]).
  - split; [exact A|]. intros -> ->. vm_compute in Eb. discriminate.
Qed.
Lemma ov_site_ok gx x s full : unitary gx -> 0 <= x < 16 -> (full = true \/ x <> 8) -> ov_inv full s -> ov_inv full (overrelax_site ov_grid 0 gx x s) /\ (x = 0 -> ov_inv true (overrelax_site ov_grid 0 gx x s)).
Proof.
  intros Ug Hx Hf A. assert (E : overrelax_site ov_grid 0 gx x s = fold_left (ov_write gx x) dirs s) by (unfold overrelax_site, ov_write; reflexivity). rewrite E. clear E. unfold dirs. cbn [fold_left seq].
  split.
  - do 4 (apply (fun H1 H2 => proj1 (ov_write_ok gx x _ _ full Ug Hx H1 Hf H2)); [lia|]). exact A.
  - intros ->. do 3 (apply (fun H1 H2 => proj1 (ov_write_ok gx 0 _ _ true Ug Hx H1 (or_introl eq_refl) H2)); [lia|]). apply ov_write_ok with (full := full); auto; lia.
Qed.
Lemma ov_sites eo k x : eo = 0 \/ eo = 1 -> 0 <= k < 8 -> loclx_of_loceo (rank_eo ov_grid 0) eo k = Some x -> 0 <= x < 16 /\ (eo = 0 -> x <> 8).
Proof.
  intros He Hk E. assert (K : k = 0 \/ k = 1 \/ k = 2 \/ k = 3 \/ k = 4 \/ k = 5 \/ k = 6 \/ k = 7) by lia.
  destruct He as [-> | ->]; destruct K as [->|[->|[->|[->|[->|[->|[->| ->]]]]]]]; vm_compute in E; injection E as <-; lia.
Qed.
Lemma ov_unit x mu : unitary (ov_link x mu).
Proof. unfold ov_link. destruct (list_eq_dec Z.eq_dec x [1; 0; 0; 0]); [destruct (Nat.eqb mu 0)|]; [apply turn_unitary|apply su_1|apply su_1]. Qed.
Lemma ov_8 i : getLoclxAndRankOfCoords ov_grid [1; 0; 0; 0] = (0, i) -> i = 8.
Proof. intros E. vm_compute in E. congruence. Qed.
Lemma ov_locVol : locVol ov_grid = 16. Proof. vm_compute. reflexivity. Qed.
Lemma ov_locVolh : locVolh ov_grid = 8. Proof. vm_compute. reflexivity. Qed.
Lemma ov_ranks : nranks ov_grid = 1. Proof. vm_compute. reflexivity. Qed.
Lemma ov_valid : valid_grid ov_grid = true. Proof. vm_compute. reflexivity. Qed.
Lemma ov_first : loclx_of_loceo (rank_eo ov_grid 0) 0 0 = Some 0. Proof. vm_compute. reflexivity. Qed.
Lemma ov_start : ov_inv false ov_conf.
Proof.
  intros i mu Hi Hmu. unfold ov_conf. destruct (site_coords ov_grid 0 i ov_valid) as (x & Ex & Bx & Gx); [rewrite ov_ranks; lia|rewrite ov_locVol; exact Hi|].
  apply ov_gc in Ex. rewrite Ex. cbn [option_map]. eexists. split; [reflexivity|]. intros [K|K]; [discriminate|]. unfold ov_link.
  destruct (list_eq_dec Z.eq_dec x [1; 0; 0; 0]) as [->|]; [|reflexivity]. apply ov_8 in Gx. destruct (Nat.eqb_spec mu 0) as [->|]; [tauto|reflexivity].
Qed.
Section Ov.
Context (ord : Z -> nat -> nat -> nat -> Z -> Z -> list Z) (rot : Z -> @qfield cmat -> Z -> cmat) (Ho : any_order ord) (Ur : forall eo u x, unitary (rot eo u x)).
Definition ov_gbody (g : grid) (eo ieo : Z) (u : @qfield cmat) : @qfield cmat := match loclx_of_loceo (rank_eo g 0) eo ieo with Some ivol => overrelax_site g 0 (rot eo u ivol) ivol u | None => u end.
Lemma ov_ghalf g eo u : overrelax_half g ord rot 0 eo u = fold_left (fun u k => ov_gbody g eo k u) (ord 0 25%nat (Z.to_nat eo) 0%nat 0 (locVolh g)) u.
Proof. reflexivity. Qed.
Definition ov_body := ov_gbody ov_grid.
Lemma ov_body_ok eo k u full : eo = 0 \/ eo = 1 -> 0 <= k < 8 -> (full = true \/ eo = 0) -> ov_inv full u -> ov_inv full (ov_body eo k u).
Proof using Ur.
  intros He Hk Hf A. unfold ov_body, ov_gbody. destruct (loclx_of_loceo (rank_eo ov_grid 0) eo k) as [x|] eqn:E; [|exact A]. destruct (ov_sites eo k x He Hk E) as [Hx H8].
  apply ov_site_ok; auto. destruct Hf; [now left|right; auto].
Qed.
Lemma ov_body_0 u : ov_inv false u -> ov_inv true (ov_body 0 0 u).
Proof using Ur. intros A. unfold ov_body, ov_gbody. rewrite ov_first. apply (ov_site_ok (rot 0 u 0) 0 u false); auto; lia. Qed.
Lemma ov_half eo u : overrelax_half ov_grid ord rot 0 eo u = fold_left (fun u k => ov_body eo k u) (ord 0 25%nat (Z.to_nat eo) 0%nat 0 8) u.
Proof. rewrite ov_ghalf, ov_locVolh. unfold ov_body. reflexivity. Qed.
Lemma fold_reach {S A : Type} (f : S -> A -> S) (P Q : S -> Prop) (a : A) l : (forall s k, In k l -> P s -> P (f s k)) -> (forall s k, In k l -> Q s -> Q (f s k)) ->
  (forall s, Q s -> P (f s a)) -> In a l -> forall s, Q s -> P (fold_left f l s).
Proof using.
  induction l as [|k l IH]; intros HP HQ HA Ha s Hs; [destruct Ha|]. cbn [fold_left]. destruct Ha as [->|Ha].
  - apply fold_keep; [intros; apply HP; auto; now right|]. now apply HA.
  - apply IH; auto; [intros; apply HP; auto; now right|intros; apply HQ; auto; now right|]. apply HQ; [now left|exact Hs].
Qed.
Lemma ov_even : ov_inv true (overrelax_half ov_grid ord rot 0 0 ov_conf).
Proof using Ho Ur.
  rewrite ov_half. destruct (Ho 0 25%nat (Z.to_nat 0) 0%nat 0 8) as [_ IN]. generalize (ord 0 25%nat (Z.to_nat 0) 0%nat 0 8) IN. clear IN. intros l IN.
  apply (fold_reach (fun u k => ov_body 0 k u) (ov_inv true) (ov_inv false) 0 l).
  - intros u k Hk A. apply ov_body_ok; [now left|now apply IN|now left|exact A].
  - intros u k Hk A. apply ov_body_ok; [now left|now apply IN|now right|exact A].
  - exact ov_body_0.
  - apply IN. lia.
  - exact ov_start.
Qed.
Lemma ov_done : ov_inv true (overrelax_sweep ov_grid ord rot 0 ov_conf).
Proof using Ho Ur.
  unfold overrelax_sweep. rewrite ov_half. destruct (Ho 0 25%nat (Z.to_nat 1) 0%nat 0 8) as [_ IN].
  apply (fold_keep (fun u k => ov_body 1 k u) (ov_inv true)); [|exact ov_even]. intros u k Hk A. apply ov_body_ok; auto. now apply IN.
Qed.
End Ov.
Lemma ov_not G V Om : G = [2; 2; 2; 2] -> (forall x mu, in_box x G -> (mu < 4)%nat -> meq (V x mu) mid) -> (forall x, in_box x G -> unitary (Om x)) -> ~ same_links G V (transformed G Om ov_link).
Proof.
  intros HG LV UO L.
  assert (T1 : forall x mu y M, in_box x G -> (mu < 4)%nat -> step G x mu = y -> ov_link x mu = M -> meq (mmul (mmul (Om x) M) (dag (Om y))) mid).
  { intros x mu y M Hx Hmu <- <-. rewrite <- (LV x mu Hx Hmu). symmetry. exact (L x mu Hx Hmu). }
  assert (EM : forall X B, unitary B -> meq (mmul X (dag B)) mid -> meq X B).
  { intros X B UB E. rewrite <- (mmul_1_r X), <- (unitary_l B UB), <- mmul_assoc, E. apply mmul_1_l. }
  assert (BX : forall p q, 0 <= p < 2 -> 0 <= q < 2 -> in_box [p; q; 0; 0] G) by (intros p q Hp Hq; rewrite HG; repeat constructor; lia).
  assert (Bb : in_box [1; 0; 0; 0] G) by (apply BX; lia). assert (Bc : in_box [0; 0; 0; 0] G) by (apply BX; lia).
  assert (Bd : in_box [1; 1; 0; 0] G) by (apply BX; lia). assert (Be : in_box [0; 1; 0; 0] G) by (apply BX; lia).
  assert (NO : forall x, x <> [1; 0; 0; 0] -> forall mu, ov_link x mu = mid) by (intros x Hx mu; unfold ov_link; destruct (list_eq_dec Z.eq_dec x [1; 0; 0; 0]); [contradiction|reflexivity]).
  assert (YE : ov_link [1; 0; 0; 0] 0 = turn 1) by (unfold ov_link; destruct (list_eq_dec Z.eq_dec [1; 0; 0; 0] [1; 0; 0; 0]) as [|n]; [reflexivity|destruct n; reflexivity]).
  assert (YN : ov_link [1; 0; 0; 0] 1 = mid) by (unfold ov_link; destruct (list_eq_dec Z.eq_dec [1; 0; 0; 0] [1; 0; 0; 0]) as [|n]; reflexivity).
  assert (E1 : meq (mmul (Om [1; 0; 0; 0]) (turn 1)) (Om [0; 0; 0; 0])) by (apply EM; [now apply UO|]; apply (T1 [1; 0; 0; 0] 0%nat); [exact Bb|lia|subst G; reflexivity|exact YE]).
  assert (E2 : meq (mmul (Om [0; 0; 0; 0]) mid) (Om [0; 1; 0; 0])) by (apply EM; [now apply UO|]; apply (T1 [0; 0; 0; 0] 1%nat); [exact Bc|lia|subst G; reflexivity|apply NO; discriminate]).
  assert (E3 : meq (mmul (Om [1; 1; 0; 0]) mid) (Om [0; 1; 0; 0])) by (apply EM; [now apply UO|]; apply (T1 [1; 1; 0; 0] 0%nat); [exact Bd|lia|subst G; reflexivity|apply NO; discriminate]).
  assert (E4 : meq (mmul (Om [1; 0; 0; 0]) mid) (Om [1; 1; 0; 0])) by (apply EM; [now apply UO|]; apply (T1 [1; 0; 0; 0] 1%nat); [exact Bb|lia|subst G; reflexivity|exact YN]).
  rewrite mmul_1_r in E2, E3, E4.
  assert (TT : meq (turn 1) mid).
  { transitivity (mmul (mmul (dag (Om [1; 0; 0; 0])) (Om [1; 0; 0; 0])) (turn 1)); [rewrite (unitary_l _ (UO _ Bb)), mmul_1_l; reflexivity|].
    rewrite mmul_assoc, E1, E2, <- E3, <- E4. exact (unitary_l _ (UO _ Bb)). }
  specialize (TT 1%nat 0%nat ltac:(lia) ltac:(lia)). unfold turn, mid in TT. cbn [Nat.eqb] in TT. apply (f_equal fst) in TT. unfold RtoC in TT. cbn [fst] in TT.
  assert (S1 : (0 < sin 1)%R) by (apply sin_gt_0; [lra|]; pose proof PI2_3_2; unfold PI2 in *; lra). lra.
Qed.
Theorem C88_overrelax_refuted :
  forall ord rot, any_order ord -> (forall eo u x, unitary (rot eo u x)) ->
  (forall x mu, unitary (ov_link x mu)) /\
  exists V, holds ov_grid V (fun _ => overrelax_sweep ov_grid ord rot 0 ov_conf) /\
    forall Om, (forall x, in_box x (glbSize ov_grid) -> unitary (Om x)) -> ~ same_links (glbSize ov_grid) V (transformed (glbSize ov_grid) Om ov_link).
Proof.
  intros ord rot Ho Ur. split; [exact ov_unit|]. pose proof (ov_done ord rot Ho Ur) as H1. set (c := overrelax_sweep ov_grid ord rot 0 ov_conf) in *. clearbody c.
  destruct (gather_holds ov_grid (fun _ => c) (fun _ _ => mid) ov_valid) as (V & HV & LV).
  { intros r i x mu Hr Hi _ Hmu. rewrite ov_locVol in Hi. destruct (H1 i mu Hi Hmu) as (v & E & M). exists v. split; [exact E|]. apply M. now left. }
  exists V. split; [exact HV|]. intros Om UO. apply ov_not; [reflexivity|exact LV|exact UO].
Qed.
Print Assumptions C88_overrelax_refuted.

(** *** Example: the procedure on the 4x4x2x2 lattice on four ranks, with a turn of the links; one step of length 0 is a regular one *)
Definition ex_pars : lc_pars := {| start_mu := 0; method := EXPONENTIATE (fun _ _ _ _ => turn_gen) (fun _ _ => 0%R); targetPrecision := 0%R; nmaxIterations := 7; unitarizeEach := 5 |}.
Example C88_ex : regular ex_pars /\ exists iter s prec,
  Landau_or_Coulomb_gauge_fix st_grid st_ord st_surf (fun _ => ParModel.OpenMP) (fun i d => i + d) mid ex_pars gx_conf (fun _ _ => None) iter s prec /\ 1 <= iter <= 7 /\
  ((prec <= 0)%R \/ iter = 7).
Proof.
  assert (RG : regular ex_pars).
  { intros iter s r i. exists mid. unfold inverse_of. rewrite mmul_1_r. apply GfixStep.exp_step_0. }
  split; [exact RG|]. assert (Hi : distinct_addresses (fun i d => i + d) (locVol st_grid) 1) by (intros i d j e; intros; split; lia).
  destruct (C88_returns st_grid st_ord st_surf (fun _ => ParModel.OpenMP) (fun i d => i + d) mid ex_pars gx_link gx_conf (fun _ _ => None) eq_refl st_ord_ok st_surf_ok Hi gx_holds RG I) as (iter & s & prec & Run).
  exists iter, s, prec. split; [exact Run|].
  destruct (C88_fixes st_grid _ _ _ _ _ _ _ _ _ _ _ _ eq_refl st_ord_ok st_surf_ok gx_holds RG Run) as (_ & _ & D & B). cbn [ex_pars nmaxIterations targetPrecision] in D, B. split; [lia|]. destruct D as [D|D]; [now left|right; lia].
Qed.
