(** The force computed by the ranks, and its relation with the derivative of the action. *)
From Coq Require Import Reals Lra Permutation Morphisms.
From Coquelicot Require Import Coquelicot.
From Verif Require Import Base GeometryModel GeometrySpec GeoMiscModel HaloModel HaloProofs StapleModel StapleSpec StapleProofs Prop_Staple
  StapleMain CplxModel MatModel MatSpec MatProofs4 MatAlg ChecksumSpec ChecksumMain GaugeModel GaugeSpec GaugeProofs GaugeAlg.
Set Bullet Behavior "Strict Subproofs".
Open Scope Z_scope.

(** ** values *)
Definition vsum (l : list cmat) : cmat := match l with [] => fun _ _ => RtoC 0 | a :: l => fold_left madd l a end.
(** the sum of the staples, and the force *)
Definition staple_sum (G : list Z) U x mu : cmat := vsum (staples_of mmul muldag dagmul G U x mu).
Definition force_val (beta : R) (G : list Z) U x mu : cmat :=
  traceless_part (anti_herm_part (mmul (U x mu) (mscale (RtoC (- beta / 3)) (dag (staple_sum G U x mu))))).

Global Instance anti_herm_proper : Proper (meq ==> meq) anti_herm_part.
Proof. intros a b H. unfold anti_herm_part. now rewrite H. Qed.
Global Instance traceless_proper : Proper (meq ==> meq) traceless_part.
Proof. intros a b H. unfold traceless_part. rewrite (trace_proper a b H). now rewrite H. Qed.
Lemma fold_meq l l' : Forall2 meq l l' -> forall a b, meq a b -> meq (fold_left su3_sum l a) (fold_left madd l' b).
Proof. induction 1 as [|x y l l' E F IH]; intros a b Hab; cbn [fold_left]; [exact Hab|]. apply IH. rewrite su3_sum_ok, E, Hab. reflexivity. Qed.
Lemma sum_code G U x mu v : sum_of su3_sum (staples_of su3_prod su3_prod_dag su3_dag_prod G U x mu) = Some v -> meq v (staple_sum G U x mu).
Proof.
  unfold staple_sum, sum_of, vsum.
  assert (F : Forall2 meq (staples_of su3_prod su3_prod_dag su3_dag_prod G U x mu) (staples_of mmul muldag dagmul G U x mu)).
  { unfold staples_of. apply Forall2_app; (induction (other_dirs mu) as [|nu l IH]; cbn [map]; constructor; [|exact IH]).
    - unfold bw_of, dagmul. now rewrite su3_prod_ok, su3_dag_prod_ok.
    - unfold fw_of, muldag. now rewrite su3_prod_dag_ok, su3_prod_ok. }
  destruct F as [|a b l l' E F]; [discriminate|]. intros [= <-]. now apply fold_meq.
Qed.

(** ** the loops *)
Lemma site_loop {T} (f : nat -> option T -> option T) ivol (F : @qfield T) :
  let F' := fold_left (fun F mu => link_put F ivol mu (f mu (F ivol mu))) dirs F in
  (forall mu, (mu < 4)%nat -> F' ivol mu = f mu (F ivol mu)) /\ (forall j mu, j <> ivol -> F' j mu = F j mu).
Proof.
  cbv zeta. unfold dirs. cbn [fold_left]. split.
  - intros mu Hmu. unfold link_put. rewrite !Z.eqb_refl. destruct mu as [|[|[|[|]]]]; [reflexivity..|lia].
  - intros j mu Hj. rewrite !put_else by (left; exact Hj). reflexivity.
Qed.
Section Loop.
Context (ord : Z -> nat -> nat -> nat -> Z -> Z -> list Z) (Ho : any_order ord).
(** each iteration works on the entries of its own site: all of them are done once *)
Lemma par_sites {T} r l a b n (body : Z -> @qfield T -> @qfield T) (f : Z -> nat -> option T -> option T) (F : @qfield T) :
  (forall i s mu, (mu < 4)%nat -> body i s i mu = f i mu (s i mu)) -> (forall i s j mu, j <> i -> body i s j mu = s j mu) ->
  (forall i mu, 0 <= i < n -> (mu < 4)%nat -> PAR ord r l a b 0 n body F i mu = f i mu (F i mu)) /\
  (forall i mu, ~ (0 <= i < n) -> PAR ord r l a b 0 n body F i mu = F i mu).
Proof.
  intros H1 H2. destruct (Ho r l a b 0 n) as [N I]. unfold PAR.
  assert (K : forall L s i mu, ~ In i L -> fold_left (fun s i => body i s) L s i mu = s i mu).
  { induction L as [|j L IH]; intros s i mu Hi; cbn [fold_left]; [reflexivity|]. rewrite IH by (intros ?; apply Hi; now right). apply H2. intros ->. apply Hi. now left. }
  split; intros i mu Hi.
  - intros Hmu. apply I in Hi. revert Hi N F. generalize (ord r l a b 0 n). clear I. induction l0 as [|j L IH]; intros Hi N F; [destruct Hi|].
    cbn [fold_left]. inversion N as [|? ? Nj N']; subst. destruct Hi as [->|Hi].
    + rewrite K by exact Nj. now apply H1.
    + rewrite IH by assumption. rewrite H2; [reflexivity|]. intros ->. contradiction.
  - apply K. intros H. apply I in H. lia.
Qed.
End Loop.

Section G.
Context (g : grid) (Hv : valid_grid g = true).
Context (surf_sched : Z -> list Z) (Hs : forall q, 0 <= q < nranks g -> forall i, In i (surf_sched q) <-> 0 <= i < locVol g).
Context (ord : Z -> nat -> nat -> nat -> Z -> Z -> list Z) (Ho : any_order ord).
Context (U : list Z -> nat -> cmat) (conf : Z -> @qfield cmat) (Hc : holds g U conf).
Lemma force_run ss sb F beta r : 0 <= r < nranks g ->
  exists c o, compute_gluonic_force_lx_conf g ord surf_sched conf ss sb F beta r = Some (c, o) /\
    (forall A x mu, 0 <= A < locVol g -> glbCoordOfLoclx (rank_labels g r) A = Some x -> (mu < 4)%nat ->
       exists f, o A mu = Some f /\ meq f (force_val beta (glbSize g) U x mu)) /\
    (forall i mu, ~ (0 <= i < locVol g) -> o i mu = F r i mu) /\
    (forall i mu, i < locVol g + bordVolh g \/ locVol g + bordVol g <= i -> c i mu = conf r i mu).
Proof.
  intros Hr. destruct (C82_summed cmat su3_prod su3_prod_dag su3_dag_prod su3_sum g Hv surf_sched ord Hs Ho U conf ss sb F Hc r Hr) as (c & o & E & G1 & G2 & G3).
  unfold compute_gluonic_force_lx_conf, Wilson_force_lx_conf. rewrite E. eexists c, _. split; [reflexivity|].
  match goal with |- context [PAR ord r 10 0 0 0 _ ?b o] => set (b10 := b); destruct (par_sites ord Ho r 10 0 0 (locVol g) b10
    (fun i mu v => option_map (call0 (fun u w => safe_su3_hermitian_prod_double u w (- beta / INR NCOL))) v) o) as [P1 P2] end.
  { intros i s mu Hmu. apply (site_loop (fun mu v => option_map (call0 (fun u w => safe_su3_hermitian_prod_double u w (- beta / INR NCOL))) v) i s); exact Hmu. }
  { intros i s j mu Hj. apply (site_loop (fun mu v => option_map (call0 (fun u w => safe_su3_hermitian_prod_double u w (- beta / INR NCOL))) v) i s); exact Hj. }
  set (o1 := PAR ord r 10 0 0 0 (locVol g) b10 o) in *. clearbody o1. 
  set (fin := fun (i : Z) (mu : nat) (v : option cmat) => match op2 su3_prod (c i mu) v with
     | Some temp => option_map (fun w => call1 unsafe_su3_traceless_anti_hermitian_part w temp) v | None => None end).
  match goal with |- context [PAR ord r 11 0 0 0 _ ?b o1] => set (b11 := b); destruct (par_sites ord Ho r 11 0 0 (locVol g) b11 fin o1) as [Q1 Q2] end.
  { intros i s mu Hmu. apply (site_loop (fin i) i s); exact Hmu. }
  { intros i s j mu Hj. apply (site_loop (fin i) i s); exact Hj. }
  pose proof (vols_nonneg g Hv) as (V0 & V1 & V2).
  split; [|split; [|exact G3]].
  - intros A x mu HA Hx Hmu. rewrite Q1 by assumption. rewrite P1 by assumption. pose proof (G1 A x mu HA Hx Hmu) as E1.
    destruct (sum_of su3_sum _) as [v|] eqn:Ev; [|discriminate Ev || (unfold staples_of, other_dirs in Ev; destruct mu as [|[|[|[|]]]]; [discriminate Ev..|lia])].
    apply sum_code in Ev. rewrite E1. cbn [option_map]. unfold fin. rewrite G3 by (unfold bordVol in *; lia). rewrite (Hc r A x mu Hr HA Hx Hmu). cbn [op2 option_map].
    eexists. split; [reflexivity|]. rewrite ta_ok, su3_prod_ok, herm_ok, Ev. unfold force_val, NCOL. cbn [INR]. replace (1 + 1 + 1)%R with 3%R by lra. reflexivity.
  - intros i mu Hi. rewrite Q2, P2 by exact Hi. now apply G2.
Qed.
End G.

(** ** the trace with a traceless antihermitian matrix only sees the traceless antihermitian part *)
Lemma m1 : RtoC (-1) = (- RtoC 1)%C. Proof. rewrite <- RtoC_opp. reflexivity. Qed.
Lemma ah_part a : anti_hermitian (traceless_part (anti_herm_part a)) /\ trace (traceless_part (anti_herm_part a)) = RtoC 0.
Proof.
  split.
  - assert (Y : forall i j, Cconj (anti_herm_part a j i) = (RtoC (-1) * anti_herm_part a i j)%C).
    { intros i j. unfold anti_herm_part, msub, mscale, dag. rewrite !Cconj_mult, Cconj_minus, Cconj_conj, Cconj_R, m1. ring. }
    generalize dependent (anti_herm_part a). intros y Y.
    assert (T : Cconj (trace y) = (RtoC (-1) * trace y)%C).
    { unfold trace. cbn [csum]. rewrite !Cconj_plus, !Y, Cconj_R, m1. ring. }
    intros i j Hi Hj. unfold dag, traceless_part, msub, mscale. rewrite Cconj_minus, !Cconj_mult, Y, T, Cconj_R, m1.
    replace (Cconj (mid j i)) with (mid i j); [ring|]. unfold mid. rewrite (Nat.eqb_sym j i). destruct (Nat.eqb i j); now rewrite Cconj_R.
  - generalize (anti_herm_part a). intros y. transitivity (trace y * (RtoC 1 - (RtoC (/ 3) + RtoC (/ 3) + RtoC (/ 3))))%C.
    + unfold traceless_part, msub, mscale, trace, mid. cbn [csum Nat.eqb]. ring.
    + replace (RtoC (/ 3) + RtoC (/ 3) + RtoC (/ 3))%C with (RtoC 1); [ring|]. rewrite <- !RtoC_plus. f_equal. lra.
Qed.
Lemma re_tr_ah b x : anti_hermitian b -> trace b = RtoC 0 -> re_tr (mmul b (traceless_part (anti_herm_part x))) = re_tr (mmul b x).
Proof.
  intros Hb Ht. unfold traceless_part.
  assert (L : forall a c d, re_tr (mmul a (msub c (mscale d mid))) = (re_tr (mmul a c) - fst (d * trace a)%C)%R).
  { intros. unfold re_tr, trace, mmul, msub, mscale, mid. cbn [csum Nat.eqb]. unfold Cminus, Copp, Cplus, Cmult, RtoC. cbn [fst snd]. lra. }
  rewrite L, Ht. replace (trace (anti_herm_part x) * RtoC (/ 3) * RtoC 0)%C with (RtoC 0) by ring. cbn [fst RtoC].
  unfold anti_herm_part.
  assert (L2 : re_tr (mmul b (mscale (RtoC (/ 2)) (msub x (dag x)))) = (/ 2 * (re_tr (mmul b x) - re_tr (mmul b (dag x))))%R).
  { unfold re_tr, trace, mmul, msub, mscale. cbn [csum]. unfold Cminus, Copp, Cplus, Cmult, RtoC. cbn [fst snd]. lra. }
  assert (L3 : re_tr (mmul b (dag x)) = (- re_tr (mmul b x))%R).
  { rewrite <- (re_tr_dag (mmul b (dag x))), dag_mul, dag_dag, re_tr_comm. red in Hb. setoid_rewrite Hb. rewrite mmul_scale_l, re_tr_scale. lra. }
  rewrite L2, L3. lra.
Qed.
Lemma ih_ah h : hermitian h -> trace h = RtoC 0 -> anti_hermitian (mscale Ci h) /\ trace (mscale Ci h) = RtoC 0.
Proof.
  intros Hh Ht. split.
  - intros i j Hi Hj. unfold dag, mscale. rewrite Cconj_mult. pose proof (Hh i j Hi Hj) as E. unfold dag in E. rewrite E.
    unfold Ci. apply injective_projections; unfold Cmult, Cconj, RtoC; cbn [fst snd]; lra.
  - transitivity (Ci * trace h)%C; [unfold trace, mscale; cbn [csum]; ring|]. rewrite Ht. ring.
Qed.

(** ** the force is the derivative *)
Section Der.
Context (G : list Z) (HG : length G = 4%nat) (Ut : R -> list Z -> nat -> cmat) (H : list Z -> nat -> cmat) (t beta : R).
Context (HH : forall x mu, in_box x G -> (mu < 4)%nat -> hermitian (H x mu) /\ trace (H x mu) = RtoC 0).
Context (HU : forall x mu, in_box x G -> (mu < 4)%nat -> mat_derive (fun s => Ut s x mu) t (mmul (mscale Ci (H x mu)) (Ut t x mu))).
Lemma force_der : is_derive (fun s => wilson_action G (Ut s) beta) t (link_sum G (fun x mu => re_tr (mmul (mscale Ci (H x mu)) (force_val beta G (Ut t) x mu)))).
Proof.
  eapply der_eq; [apply (action_der G HG Ut (fun x mu => mmul (mscale Ci (H x mu)) (Ut t x mu)) t HU beta)|].
  unfold link_sum. rewrite <- lsum_scal. apply lsum_ext. intros x Hx. apply in_all_coords in Hx. rewrite <- lsum_scal. apply lsum_ext. intros mu Hmu. apply in_dirs in Hmu.
  destruct (HH x mu Hx Hmu) as [Hh Ht]. destruct (ih_ah _ Hh Ht) as [A1 A2]. unfold force_val. rewrite (re_tr_ah _ _ A1 A2), mmul_scale_r, mmul_scale_r, re_tr_scale. f_equal.
  rewrite <- mmul_assoc. set (X := mmul (mscale Ci (H x mu)) (Ut t x mu)).
  assert (S : forall a b, re_tr (mmul X (dag (madd a b))) = (re_tr (mmul X (dag a)) + re_tr (mmul X (dag b)))%R).
  { intros. unfold re_tr, trace, mmul, dag, madd. cbn [csum]. unfold Cplus, Cmult, Cconj, RtoC. cbn [fst snd]. ring. }
  unfold term, f_term, b_term, fw, bw. fold X. unfold staple_sum, staples_of, other_dirs, dirs.
  destruct mu as [|[|[|[|]]]]; [| | | |lia]; cbn [filter Nat.eqb negb map app vsum fold_left]; rewrite !lsum_cons, lsum_nil, !S; fold X; ring.
Qed.
End Der.
Lemma norm2_der f t d : mat_derive f t d -> is_derive (fun s => norm2 (f s)) t (2 * re_tr (mmul d (dag (f t))))%R.
Proof.
  intros H. eapply der_eq; [apply (mder_re_tr (fun s => mmul (f s) (dag (f s)))), mder_mul; [exact H|apply mder_dag; exact H]|].
  rewrite re_tr_add, <- (re_tr_dag (mmul (f t) (dag d))), dag_mul, dag_dag. lra.
Qed.
