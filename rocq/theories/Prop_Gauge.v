(** Property theorems: plaquette, Wilson action and its force. *)
From Coq Require Import Reals Lra.
From Coquelicot Require Import Coquelicot.
From Verif Require Import Base GeometryModel GeometrySpec GeoMiscModel HaloModel HaloProofs ReduceSpec StapleModel StapleSpec Prop_Staple
  CplxModel MatModel MatSpec MatProofs4 MatAlg OwnerProofs ChecksumSpec ChecksumMain StapleMain GaugeModel GaugeSpec GaugeProofs GaugeAlg GaugeForce GaugeExist.
From Verif Require ParModel ParSpec.
Set Bullet Behavior "Strict Subproofs".
Open Scope Z_scope.

(** the table of the surface is built visiting all the local sites *)
Definition surface_order (g : grid) (surf_sched : Z -> list Z) : Prop :=
  forall q, 0 <= q < nranks g -> forall i, In i (surf_sched q) <-> 0 <= i < locVol g.
(** the sites can be launched: no overflow of the indices *)
Definition launchable (g : grid) (bk : Z -> ParModel.backend) : Prop := forall k, 0 <= k <= locVol g -> ParSpec.fits (bk k) 0 k.

(** C83: the plaquettes reported are the averages on the periodic lattice; they are always reported *)
Theorem C83_plaquette :
  forall g surf_sched bk ix U conf, valid_grid g = true -> surface_order g surf_sched -> launchable g bk -> distinct_addresses ix (locVol g) 2 -> holds g U conf ->
  (exists tot, global_plaquette_lx_conf g surf_sched bk ix conf tot) /\
  forall tot, global_plaquette_lx_conf g surf_sched bk ix conf tot ->
    tot 0%nat = mean_plaquette (glbSize g) U time_planes /\ tot 1%nat = mean_plaquette (glbSize g) U space_planes.
Proof.
  intros g ss bk ix U conf Hv Hs Hb Hix Hc. split; [now apply plaq_exists with U|]. intros tot. now apply plaq_main.
Qed.
Print Assumptions C83_plaquette.

(** C83: and a change of bases in colour space does not change them *)
Theorem C83_gauge_invariant :
  forall g surf_sched surf_sched' bk bk' ix ix' U Om conf conf', valid_grid g = true -> surface_order g surf_sched -> surface_order g surf_sched' -> launchable g bk -> launchable g bk' ->
  distinct_addresses ix (locVol g) 2 -> distinct_addresses ix' (locVol g) 2 ->
  (forall x, in_box x (glbSize g) -> unitary (Om x)) -> holds g U conf -> holds g (transformed (glbSize g) Om U) conf' ->
  forall tot tot', global_plaquette_lx_conf g surf_sched bk ix conf tot -> global_plaquette_lx_conf g surf_sched' bk' ix' conf' tot' ->
  tot 0%nat = tot' 0%nat /\ tot 1%nat = tot' 1%nat.
Proof.
  intros g ss ss' bk bk' ix ix' U Om conf conf' Hv Hs Hs' Hb Hb' Hi Hi' HO Hc Hc' tot tot' H H'.
  destruct (C83_plaquette g ss bk ix U conf Hv Hs Hb Hi Hc) as [_ P]. destruct (P tot H) as [-> ->].
  destruct (C83_plaquette g ss' bk' ix' _ conf' Hv Hs' Hb' Hi' Hc') as [_ P']. destruct (P' tot' H') as [-> ->].
  assert (L4 : length (glbSize g) = 4%nat) by (apply IldgProofs.glb_len; exact Hv).
  assert (K : forall x mu nu, in_box x (glbSize g) -> (mu < 4)%nat -> (nu < 4)%nat ->
    re_tr (plaquette (glbSize g) (transformed (glbSize g) Om U) x mu nu) = re_tr (plaquette (glbSize g) U x mu nu)).
  { intros x mu nu Hx Hm Hn. unfold plaquette, transformed.
    assert (Hxm : in_box (step (glbSize g) x mu) (glbSize g)) by (apply shift_in_box; [exact Hx|lia]). assert (Hxn : in_box (step (glbSize g) x nu) (glbSize g)) by (apply shift_in_box; [exact Hx|lia]).
    assert (E : step (glbSize g) (step (glbSize g) x nu) mu = step (glbSize g) (step (glbSize g) x mu) nu) by (apply step_comm; [exact Hx|lia|lia]). rewrite E.
    assert (Hz : in_box (step (glbSize g) (step (glbSize g) x mu) nu) (glbSize g)) by (apply shift_in_box; [exact Hxm|lia]).
    set (O1 := Om x). set (O2 := Om (step (glbSize g) x mu)). set (O3 := Om (step (glbSize g) x nu)). set (O4 := Om (step (glbSize g) (step (glbSize g) x mu) nu)).
    set (A := U x mu). set (B := U (step (glbSize g) x mu) nu). set (C := U x nu). set (D := U (step (glbSize g) x nu) mu).
    pose proof (unitary_l _ (HO _ Hx)) as U1. fold O1 in U1. pose proof (unitary_l _ (HO _ Hxm)) as U2. fold O2 in U2. pose proof (unitary_l _ (HO _ Hxn)) as U3. fold O3 in U3. pose proof (unitary_l _ (HO _ Hz)) as U4. fold O4 in U4.
    assert (J : forall O O' O'' X Y, meq (mmul (dag O') O') mid -> meq (mmul (mmul (mmul O X) (dag O')) (mmul (mmul O' Y) (dag O''))) (mmul (mmul O (mmul X Y)) (dag O''))).
    { intros O O' O'' X Y HO'. rewrite !mmul_assoc. rewrite <- (mmul_assoc (dag O') O'), HO', mmul_1_l. reflexivity. }
    assert (Q : forall X Y, meq (mmul (mmul (mmul O1 X) (dag O4)) (dag (mmul (mmul O1 Y) (dag O4)))) (mmul O1 (mmul (mmul X (dag Y)) (dag O1)))).
    { intros X Y. rewrite !dag_mul, dag_dag, !mmul_assoc, <- (mmul_assoc (dag O4) O4), U4, mmul_1_l. reflexivity. }
    rewrite (J O1 O2 O4 A B U2), (J O1 O3 O4 C D U3), Q. rewrite (re_tr_comm O1), (mmul_assoc (mmul _ _) (dag O1)), U1, mmul_1_r. reflexivity. }
  assert (W : forall l, (forall p, In p l -> (fst p < 4 /\ snd p < 4)%nat) ->
    mean_plaquette (glbSize g) (transformed (glbSize g) Om U) l = mean_plaquette (glbSize g) U l).
  { intros l Hl. unfold mean_plaquette. f_equal. apply lsum_ext. intros x Hx. apply in_all_coords in Hx. apply lsum_ext. intros p Hp. rewrite K; [reflexivity|exact Hx|now apply Hl..]. }
  split; symmetry; apply W; intros p Hp; cbn in Hp; intuition (subst; cbn; lia).
Qed.
Print Assumptions C83_gauge_invariant.

(** C84: the action computed from the average plaquette is the Wilson action *)
Theorem C84_action :
  forall g surf_sched bk ix U conf beta, valid_grid g = true -> surface_order g surf_sched -> launchable g bk -> distinct_addresses ix (locVol g) 2 -> holds g U conf ->
  forall tot, global_plaquette_lx_conf g surf_sched bk ix conf tot ->
  Wilson_action g (average_plaquette tot) beta = wilson_action (glbSize g) U beta.
Proof.
  intros g ss bk ix U conf beta Hv Hs Hb Hi Hc tot H. destruct (C83_plaquette g ss bk ix U conf Hv Hs Hb Hi Hc) as [_ P]. destruct (P tot H) as [E0 E1].
  unfold Wilson_action, average_plaquette, wilson_action. rewrite E0, E1. unfold mean_plaquette. cbn [length time_planes space_planes INR].
  assert (V : IZR (prodZ (glbSize g)) = INR (length (all_coords (glbSize g)))).
  { rewrite length_all_coords by (apply glbSize_pos; exact Hv). rewrite INR_IZR_INZ, Z2Nat.id; [reflexivity|]. pose proof (prodZ_pos _ (glbSize_pos g Hv)). lia. }
  assert (V0 : IZR (prodZ (glbSize g)) <> 0%R). { apply not_0_IZR. pose proof (prodZ_pos (glbSize g) (glbSize_pos g Hv)). lia. }
  unfold glbVol. rewrite GeometryProofs.volOfLx_prodZ.
  set (S1 := lsum _ _). set (S2 := lsum _ (all_coords (glbSize g))) at 1.
  assert (E : lsum (fun x => lsum (fun p => (1 - re_tr (plaquette (glbSize g) U x (fst p) (snd p)) / 3)%R) (time_planes ++ space_planes)) (all_coords (glbSize g)) = (6 * INR (length (all_coords (glbSize g))) - S1 - S2)%R).
  { unfold S1, S2. rewrite <- (Rmult_comm (INR _)), <- lsum_const.
    transitivity (lsum (fun x => 6 + (-1 * lsum (fun p => re_tr (plaquette (glbSize g) U x (fst p) (snd p)) / 3) time_planes + -1 * lsum (fun p => re_tr (plaquette (glbSize g) U x (fst p) (snd p)) / 3) space_planes))%R (all_coords (glbSize g))).
    - apply lsum_ext. intros x _. unfold time_planes, space_planes. cbn [app]. rewrite !lsum_cons, !lsum_nil. lra.
    - rewrite !lsum_plus, !lsum_scal. lra. }
  rewrite E, <- V. field. exact V0.
Qed.
Print Assumptions C84_action.

(** C84: the matrices left by the ranks in the force are antihermitian and traceless, and tell how the action changes when every link is moved by its momentum *)
Theorem C84_force :
  forall g surf_sched ord U conf ss sb F0 beta, valid_grid g = true -> surface_order g surf_sched -> any_order ord -> holds g U conf ->
  exists F,
    (forall r, 0 <= r < nranks g -> exists c o, compute_gluonic_force_lx_conf g ord surf_sched conf ss sb F0 beta r = Some (c, o) /\
       forall A x mu, 0 <= A < locVol g -> glbCoordOfLoclx (rank_labels g r) A = Some x -> (mu < 4)%nat -> exists f, o A mu = Some f /\ meq f (F x mu)) /\
    (forall x mu, anti_hermitian (F x mu) /\ trace (F x mu) = RtoC 0) /\
    forall Ut H t, Ut t = U ->
      (forall x mu, in_box x (glbSize g) -> (mu < 4)%nat -> hermitian (H x mu) /\ trace (H x mu) = RtoC 0) ->
      (forall x mu, in_box x (glbSize g) -> (mu < 4)%nat -> mat_derive (fun s => Ut s x mu) t (mmul (mscale Ci (H x mu)) (U x mu))) ->
      is_derive (fun s => wilson_action (glbSize g) (Ut s) beta) t (link_sum (glbSize g) (fun x mu => re_tr (mmul (mscale Ci (H x mu)) (F x mu)))).
Proof.
  intros g su ord U conf ss sb F0 beta Hv Hs Ho Hc. exists (force_val beta (glbSize g) U). split; [|split].
  - intros r Hr. destruct (force_run g Hv su Hs ord Ho U conf Hc ss sb F0 beta r Hr) as (c & o & E & G & _). now exists c, o.
  - intros x mu. apply ah_part.
  - intros Ut H t <- HH HU. apply force_der; [apply IldgProofs.glb_len; exact Hv|exact HH|exact HU].
Qed.
Print Assumptions C84_force.

(** C84: when the links follow dU = i H U and the momenta dH = -i F, which is what one step of the evolution does to the first order (C66), the action plus half of
    the trace of the squared momenta does not change *)
Theorem C84_energy :
  forall g surf_sched ord conf ss sb F0 beta Ut Ht t, valid_grid g = true -> surface_order g surf_sched -> any_order ord -> holds g (Ut t) conf ->
  (forall x mu, in_box x (glbSize g) -> (mu < 4)%nat -> hermitian (Ht t x mu) /\ trace (Ht t x mu) = RtoC 0) ->
  (forall x mu, in_box x (glbSize g) -> (mu < 4)%nat -> mat_derive (fun s => Ut s x mu) t (mmul (mscale Ci (Ht t x mu)) (Ut t x mu))) ->
  (forall r c o A x mu f, 0 <= r < nranks g -> compute_gluonic_force_lx_conf g ord surf_sched conf ss sb F0 beta r = Some (c, o) ->
     0 <= A < locVol g -> glbCoordOfLoclx (rank_labels g r) A = Some x -> (mu < 4)%nat -> o A mu = Some f ->
     mat_derive (fun s => Ht s x mu) t (mscale (- Ci)%C f)) ->
  is_derive (fun s => wilson_action (glbSize g) (Ut s) beta + kinetic (glbSize g) (Ht s))%R t 0%R.
Proof.
  intros g su ord conf ss sb F0 beta Ut Ht t Hv Hs Ho Hc HH HU HF.
  destruct (C84_force g su ord (Ut t) conf ss sb F0 beta Hv Hs Ho Hc) as (F & R & _ & D).
  assert (HF' : forall x mu, in_box x (glbSize g) -> (mu < 4)%nat -> mat_derive (fun s => Ht s x mu) t (mscale (- Ci)%C (F x mu))).
  { intros x mu Hx Hmu. destruct (getLoclxAndRankOfCoords g x) as [r i] eqn:E. destruct (owner_site g Hv x r i Hx E) as (Hr & Hi & Hg).
    destruct (R r Hr) as (c & o & Er & G). destruct (G i x mu Hi Hg Hmu) as (f & Ef & M). intros a b Ha Hb.
    destruct (HF r c o i x mu f Hr Er Hi Hg Hmu Ef a b Ha Hb) as [D1 D2]. unfold mscale in *. rewrite (M a b Ha Hb) in D1, D2. now split. }
  eapply der_eq; [apply der_plus; [apply (D Ut (Ht t) t eq_refl HH HU)|]|].
  - unfold kinetic, link_sum. apply der_lsum with (f := fun x s => lsum (fun mu => norm2 (Ht s x mu) / 2)%R dirs) (d := fun x => lsum (fun mu => (/ 2 * (2 * re_tr (mmul (mscale (- Ci)%C (F x mu)) (dag (Ht t x mu)))))%R) dirs).
    intros x Hx. apply in_all_coords in Hx. apply der_lsum with (f := fun mu s => (norm2 (Ht s x mu) / 2)%R). intros mu Hmu. apply in_dirs in Hmu.
    apply der_ext with (fun s => / 2 * norm2 (Ht s x mu))%R; [intros; apply Rmult_comm|]. apply der_scal, norm2_der. now apply HF'.
  - unfold link_sum. rewrite <- lsum_plus. transitivity (lsum (fun _ : list Z => 0%R) (all_coords (glbSize g))); [|rewrite lsum_const; lra].
    apply lsum_ext. intros x Hx. apply in_all_coords in Hx. rewrite <- lsum_plus. transitivity (lsum (fun _ : nat => 0%R) dirs); [|rewrite lsum_const; lra].
    apply lsum_ext. intros mu Hmu. apply in_dirs in Hmu. destruct (HH x mu Hx Hmu) as [Hh _]. red in Hh. setoid_rewrite Hh.
    rewrite (re_tr_comm (mscale (- Ci)%C _)), mmul_scale_r, mmul_scale_l.
    assert (Q : forall m, re_tr (mscale (- Ci)%C m) = (- re_tr (mscale Ci m))%R).
    { intros m. unfold re_tr, trace, mscale. cbn [csum]. unfold Cplus, Cmult, Copp, Ci, RtoC. cbn [fst snd]. ring. }
    rewrite Q. lra.
Qed.
Print Assumptions C84_energy.

(** 4x4x2x2 sites on 2x2x1x1 ranks; all the links in direction 0 are a cyclic permutation of the colours, those in direction 1 change two signs: the plaquettes in the
    plane of the two have trace -1, the others 3 *)
Definition tw_link (x : list Z) (mu : nat) : cmat := fun i j =>
  match mu with
  | 0%nat => if Nat.eqb ((i + 1) mod 3) j then RtoC 1 else RtoC 0
  | 1%nat => if Nat.eqb i j then (if Nat.eqb i 0 then RtoC 1 else - RtoC 1)%C else RtoC 0
  | _ => mid i j
  end.
Definition tw_conf (q i : Z) (mu : nat) : option cmat :=
  if (0 <=? i) && (i <? locVol st_grid) then option_map (fun x => tw_link x mu) (glbCoordOfLoclx (rank_labels st_grid q) i) else None.
Lemma tw_holds : holds st_grid tw_link tw_conf.
Proof. intros q i x mu _ Hi Hx _. unfold tw_conf. replace ((0 <=? i) && (i <? locVol st_grid)) with true by lia. now rewrite Hx. Qed.
Lemma tw_plaq x mu nu : re_tr (plaquette [4;4;2;2] tw_link x mu nu) = match mu, nu with 0%nat, 1%nat | 1%nat, 0%nat => (-1)%R | _, _ => 3%R end.
Proof.
  unfold plaquette, re_tr, trace, mmul, dag, tw_link, mid.
  destruct mu as [|[|mu]], nu as [|[|nu]]; cbn [csum Nat.eqb Nat.add Nat.modulo Nat.divmod fst snd Nat.sub]; unfold Cplus, Cmult, Cconj, Copp, RtoC; cbn [fst snd]; ring.
Qed.
Example C83_ex : exists tot, global_plaquette_lx_conf st_grid (fun _ => seqZ (locVol st_grid)) (fun _ => ParModel.OpenMP) (fun i d => 2 * i + d) tw_conf tot /\
  tot 0%nat = (5 / 9)%R /\ tot 1%nat = 1%R /\ forall beta, Wilson_action st_grid (average_plaquette tot) beta = (256 / 3 * beta)%R.
Proof.
  assert (Hs : surface_order st_grid (fun _ => seqZ (locVol st_grid))) by (intros q _ i; apply in_seqZ).
  assert (Hb : launchable st_grid (fun _ => ParModel.OpenMP)) by (intros k Hk; split; [lia|exact I]).
  assert (Hi : distinct_addresses (fun i d => 2 * i + d) (locVol st_grid) 2) by (intros a b c d; lia).
  destruct (C83_plaquette st_grid (fun _ => seqZ (locVol st_grid)) (fun _ => ParModel.OpenMP) (fun i d => 2 * i + d) tw_link tw_conf eq_refl Hs Hb Hi tw_holds) as [[tot H] P].
  exists tot. split; [exact H|]. destruct (P tot H) as [E0 E1].
  assert (T0 : tot 0%nat = (5 / 9)%R).
  { rewrite E0. unfold mean_plaquette. change (glbSize st_grid) with [4;4;2;2].
    rewrite lsum_ext with (h := fun _ => (5 / 3)%R).
    - rewrite lsum_const. change (length (all_coords [4;4;2;2])) with 64%nat. change (prodZ [4;4;2;2]) with 64. cbn [length time_planes]. rewrite !INR_IZR_INZ. cbn [Z.of_nat Pos.of_succ_nat Pos.succ]. field.
    - intros x _. unfold time_planes. rewrite !lsum_cons, lsum_nil. cbn [fst snd]. rewrite !tw_plaq. lra. }
  assert (T1 : tot 1%nat = 1%R).
  { rewrite E1. unfold mean_plaquette. change (glbSize st_grid) with [4;4;2;2].
    rewrite lsum_ext with (h := fun _ => 3%R).
    - rewrite lsum_const. change (length (all_coords [4;4;2;2])) with 64%nat. change (prodZ [4;4;2;2]) with 64. cbn [length space_planes]. rewrite !INR_IZR_INZ. cbn [Z.of_nat Pos.of_succ_nat Pos.succ]. field.
    - intros x _. unfold space_planes. rewrite !lsum_cons, lsum_nil. cbn [fst snd]. rewrite !tw_plaq. lra. }
  split; [exact T0|]. split; [exact T1|]. intros beta. unfold Wilson_action, average_plaquette. rewrite T0, T1. change (glbVol st_grid) with 64. field.
Qed.

(** the links of direction 1 turned by an angle in the plane of the first two colours, at the beginning they are those above *)
Definition turn (s : R) : cmat := fun i j => match i, j with
  | 0%nat, 0%nat | 1%nat, 1%nat => RtoC (cos s) | 0%nat, 1%nat => RtoC (- sin s) | 1%nat, 0%nat => RtoC (sin s) | _, _ => mid i j end.
Definition turn_gen : cmat := fun i j => match i, j with 0%nat, 1%nat => Ci | 1%nat, 0%nat => (- Ci)%C | _, _ => RtoC 0 end.
Definition turn_Ut (s : R) (x : list Z) (mu : nat) : cmat := if Nat.eqb mu 1 then (if Req_EM_T s 0 then tw_link x mu else mmul (turn s) (tw_link x mu)) else tw_link x mu.
Definition turn_H (x : list Z) (mu : nat) : cmat := if Nat.eqb mu 1 then turn_gen else fun _ _ => RtoC 0.
Lemma turn_0 : meq (turn 0) mid.
Proof. intros i j Hi Hj. destruct i as [|[|[|]]], j as [|[|[|]]]; try lia; unfold turn, mid; cbn [Nat.eqb]; rewrite ?cos_0, ?sin_0, ?Ropp_0; reflexivity. Qed.
Lemma turn_der : mat_derive turn 0 (mscale Ci turn_gen).
Proof.
  intros i j Hi Hj. destruct i as [|[|[|]]], j as [|[|[|]]]; try lia; unfold turn, mscale, turn_gen, mid, Ci, Cmult, Copp, RtoC; cbn [fst snd Nat.eqb];
  (split; [auto_derive; [exact I|]|auto_derive; [exact I|]]; rewrite ?sin_0, ?cos_0; ring).
Qed.
Example C84_ex : exists Ut H, Ut 0%R = tw_link /\ H [0;0;0;0] 1%nat 0%nat 1%nat = Ci /\
  (forall x mu, in_box x (glbSize st_grid) -> (mu < 4)%nat -> hermitian (H x mu) /\ trace (H x mu) = RtoC 0) /\
  (forall x mu, in_box x (glbSize st_grid) -> (mu < 4)%nat -> mat_derive (fun s => Ut s x mu) 0%R (mmul (mscale Ci (H x mu)) (tw_link x mu))).
Proof.
  exists turn_Ut, turn_H. split; [|split; [reflexivity|split]].
  - apply FunctionalExtensionality.functional_extensionality. intros x. apply FunctionalExtensionality.functional_extensionality. intros mu. unfold turn_Ut. destruct (Req_EM_T 0 0) as [_|N]; [|congruence]. now destruct (Nat.eqb mu 1).
  - intros x mu _ _. unfold turn_H, turn_gen. destruct (Nat.eqb mu 1); split.
    + intros i j Hi Hj. unfold dag. destruct i as [|[|[|]]], j as [|[|[|]]]; try lia; unfold Ci, Copp, Cconj, RtoC; cbn [fst snd]; apply injective_projections; cbn [fst snd]; ring.
    + unfold trace. cbn [csum]. ring.
    + intros i j Hi Hj. unfold dag. now rewrite Cconj_R.
    + unfold trace. cbn [csum]. ring.
  - intros x mu _ _. unfold turn_Ut, turn_H. destruct (Nat.eqb mu 1).
    + assert (D : mat_derive (fun s => mmul (turn s) (tw_link x mu)) 0%R (mmul (mscale Ci turn_gen) (tw_link x mu))).
      { intros i j Hi Hj. assert (Z0 : mat_derive (fun _ : R => tw_link x mu) 0%R (fun _ _ => RtoC 0)) by (intros a b _ _; split; apply der_const).
        pose proof (mder_mul turn (fun _ => tw_link x mu) 0%R _ _ turn_der Z0 i j Hi Hj) as [D1 D2].
        assert (E : madd (mmul (mscale Ci turn_gen) (tw_link x mu)) (mmul (turn 0) (fun _ _ => RtoC 0)) i j = mmul (mscale Ci turn_gen) (tw_link x mu) i j).
        { unfold madd, mmul at 2. cbn [csum]. ring. }
        rewrite E in D1, D2. now split. }
      assert (M : forall s i j, (i < 3)%nat -> (j < 3)%nat -> (if Req_EM_T s 0 then tw_link x mu else mmul (turn s) (tw_link x mu)) i j = mmul (turn s) (tw_link x mu) i j).
      { intros s i j Hi Hj. destruct (Req_EM_T s 0) as [->|N]; [|reflexivity]. symmetry. assert (Y : meq (mmul (turn 0) (tw_link x mu)) (tw_link x mu)) by (now rewrite turn_0, mmul_1_l). now apply Y. }
      intros i j Hi Hj. destruct (D i j Hi Hj) as [D1 D2]. split; eapply der_ext; try eassumption; intros s; cbv beta; now rewrite M.
    + intros i j Hi Hj. assert (E : mmul (mscale Ci (fun _ _ => RtoC 0)) (tw_link x mu) i j = RtoC 0) by (unfold mmul, mscale; cbn [csum]; ring).
      rewrite E. split; apply der_const.
Qed.
