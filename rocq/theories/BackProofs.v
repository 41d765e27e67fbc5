(** Proofs about BackModel. *)
From Coq Require Import Reals Lra Lia.
From Coquelicot Require Import Coquelicot.
From Verif Require Import Base GeometryModel GeometrySpec GeoMiscModel HaloModel EoModel EoProofs StapleModel StapleSpec StapleProofs Prop_Staple
  CplxModel CplxProofs MatModel MatSpec MatProofs MatProofs2 MatAlg GaugeModel GaugeSpec GaugeProofs StapleMain GfixProofs BackModel BackSpec.
Set Bullet Behavior "Strict Subproofs".
Open Scope Z_scope.

Lemma expi_plus a b : expi (a + b) = (expi a * expi b)%C.
Proof. unfold expi. rewrite cos_plus, sin_plus. unfold Cmult. cbn [fst snd]. f_equal; ring. Qed.
Lemma expi_0 : expi 0 = RtoC 1. Proof. unfold expi. now rewrite cos_0, sin_0. Qed.
Lemma expi_conj a : Cconj (expi a) = expi (- a).
Proof. unfold expi, Cconj. cbn [fst snd]. now rewrite cos_neg, sin_neg. Qed.
Lemma expi_inv a : (expi a * expi (- a))%C = RtoC 1.
Proof. rewrite <- expi_plus, Rplus_opp_r. apply expi_0. Qed.
Lemma expi_2PI k : expi (2 * IZR k * PI) = RtoC 1.
Proof.
  assert (P : forall n : nat, expi (2 * INR n * PI) = RtoC 1).
  { intros n. unfold expi. replace (2 * INR n * PI)%R with (0 + 2 * INR n * PI)%R by ring. now rewrite cos_period, sin_period, cos_0, sin_0. }
  destruct (Z_le_gt_dec 0 k) as [H|H].
  - rewrite <- (Z2Nat.id k H), <- INR_IZR_INZ. apply P.
  - assert (E : k = - Z.of_nat (Z.to_nat (- k))) by lia. rewrite E, opp_IZR, <- INR_IZR_INZ. replace (2 * - INR (Z.to_nat (- k)) * PI)%R with (- (2 * INR (Z.to_nat (- k)) * PI))%R by ring.
    rewrite <- expi_conj, P. unfold Cconj, RtoC. cbn [fst snd]. f_equal. lra.
Qed.

Lemma mscale_mscale a b X : meq (mscale a (mscale b X)) (mscale (a * b)%C X).
Proof. intros i j _ _. unfold mscale. ring. Qed.
Lemma su3_times_ok c U : meq (su3_times c U) (mscale c U).
Proof.
  unfold su3_times. destruct (safe_su3_prod_complex_ok a_out a_out l_num [3%nat]) with (m := with_num U c) as [A _].
  - discriminate.
  - unfold in_mat, l_num. intros H. decompose [ex and] H; discriminate.
  - intros i j Hi Hj. rewrite (A i j Hi Hj). reflexivity.
Qed.
Lemma u1_times_ok c z : u1_times c z = (z * c)%C.
Proof. unfold u1_times. exact (safe_complex_prod_ok [0%nat] [0%nat] [1%nat] 0 0 (two z c) [0%nat]). Qed.
Lemma u1_prodassign_ok c z : u1_prodassign c z = (z * c)%C.
Proof. unfold u1_prodassign. exact (complex_prodassign_ok [0%nat] [1%nat] [1%nat] 0 0 (two z c) [0%nat]). Qed.
Lemma factor_ok rem without ph u : factor rem without ph u = ((if rem : bool then Cconj u else u) * RtoC (if without : bool then 1 else IZR ph))%C.
Proof.
  unfold factor. set (m1 := if rem then _ else _). assert (E1 : m1 [0%nat] = if rem then Cconj u else u).
  { unfold m1. destruct rem; [exact (complex_conj_ok [0%nat] [1%nat] [1%nat] 0 0 (two (RtoC 0) u) [0%nat])|exact (complex_copy_ok [0%nat] [1%nat] [1%nat] 0 0 (two (RtoC 0) u) [0%nat])]. }
  destruct without; [rewrite E1; ring|]. rewrite (complex_prodassign_double_ok [0%nat] [1%nat] [1%nat] (IZR ph) 0 m1 [0%nat]), E1. reflexivity.
Qed.

Section Once.
Context {T : Type}.
Lemma links_of_at mus (body : nat -> option T -> option T) i s j nu : NoDup mus ->
  links_of mus body i s j nu = if ((j =? i) && existsb (Nat.eqb nu) mus)%bool then body nu (s i nu) else s j nu.
Proof.
  intros ND. unfold links_of. revert s. induction mus as [|m mus IH]; intros s; [cbn; now rewrite Bool.andb_false_r|]. apply NoDup_cons_iff in ND as [NI ND].
  cbn [fold_left existsb]. rewrite IH by exact ND. unfold link_put. rewrite Z.eqb_refl. cbn [andb].
  destruct (Z.eqb_spec j i) as [->|Nj]; cbn [andb]; [|reflexivity]. destruct (Nat.eqb_spec nu m) as [->|Nm]; cbn [orb]; [|reflexivity].
  destruct (existsb (Nat.eqb m) mus) eqn:E; [|reflexivity]. apply existsb_exists in E as (k & Hk & E). apply Nat.eqb_eq in E. now subst k.
Qed.
(** each site is written by one iteration *)
Lemma once (phi : Z -> option Z) (h : Z -> nat -> option T -> option T) (body : Z -> @qfield T -> @qfield T) l : NoDup l ->
  (forall a b, In a l -> In b l -> phi a = phi b -> phi a <> None -> a = b) ->
  (forall i s j nu, phi i = Some j -> body i s j nu = h i nu (s j nu)) -> (forall i s j nu, phi i <> Some j -> body i s j nu = s j nu) ->
  forall s, (forall i j nu, In i l -> phi i = Some j -> fold_left (fun s i => body i s) l s j nu = h i nu (s j nu)) /\
    (forall j nu, (forall i, In i l -> phi i <> Some j) -> fold_left (fun s i => body i s) l s j nu = s j nu).
Proof.
  intros ND INJ B1 B2. induction l as [|a l IH]; intros s; [split; [intros ? ? ? []|reflexivity]|]. apply NoDup_cons_iff in ND as [NI ND].
  destruct (IH ND (fun x y Hx Hy => INJ x y (or_intror Hx) (or_intror Hy)) (body a s)) as [I1 I2]. cbn [fold_left]. split.
  - intros i j nu Hi E. destruct Hi as [->|Hi].
    + rewrite I2; [now apply B1|]. intros b Hb Eb. apply NI. rewrite (INJ i b); [exact Hb|now left|now right|congruence|congruence].
    + rewrite (I1 i j nu Hi E). f_equal. apply B2. intros Ea. apply NI. rewrite (INJ a i); [exact Hi|now left|now right|congruence|congruence].
  - intros j nu H. rewrite I2 by (intros i Hi; apply H; now right). apply B2. apply H. now left.
Qed.
End Once.
Lemma dirs_nd : NoDup dirs. Proof. unfold dirs. cbn [seq]. repeat constructor; cbn; intuition lia. Qed.
Lemma dirs_has nu : existsb (Nat.eqb nu) dirs = (nu <? 4)%nat.
Proof. unfold dirs. cbn [seq existsb]. destruct nu as [|[|[|[|nu]]]]; reflexivity. Qed.

Section P.
Context (g : grid) (ord : Z -> nat -> nat -> nat -> Z -> Z -> list Z) (Ho : any_order ord).
Notation G := (glbSize g).
Lemma put_ok r conf th b e : entry_times (fun mu => expi (th mu * PI / IZR G.[mu])) (nsites g b e) conf (put_boundaries_conditions g ord r conf th b e).
Proof using Ho.
  unfold put_boundaries_conditions, PAR. fold (nsites g b e). destruct (Ho r 30%nat 0%nat 0%nat 0 (nsites g b e)) as [ND IN]. set (l := ord r 30%nat 0%nat 0%nat 0 (nsites g b e)) in *. cbv zeta.
  destruct (once Some (fun _ nu v => if (nu <? 4)%nat then option_map (su3_times (expi (th nu * PI / IZR G.[nu]))) v else v)
    (links_of dirs (fun idir => option_map (su3_times (cos (th idir * PI / IZR G.[idir]), sin (th idir * PI / IZR G.[idir]))%R))) l ND) with (s := conf) as [O1 O2].
  - intros x y _ _ E _. congruence.
  - intros i s j nu [= <-]. rewrite links_of_at by apply dirs_nd. rewrite Z.eqb_refl, dirs_has. cbn [andb]. reflexivity.
  - intros i s j nu N. rewrite links_of_at by apply dirs_nd. destruct (Z.eqb_spec j i) as [->|]; [congruence|reflexivity].
  - intros i mu. split.
    + intros Hi Hmu. rewrite (O1 i i mu); [|now apply IN|reflexivity]. apply Nat.ltb_lt in Hmu. rewrite Hmu. destruct (conf i mu) as [V|]; cbn [option_map]; [|reflexivity].
      eexists. split; [reflexivity|apply su3_times_ok].
    + intros N. destruct (in_dec Z.eq_dec i l) as [I|I].
      * rewrite (O1 i i mu I eq_refl). apply IN in I. destruct (Nat.ltb_spec mu 4); [exfalso; apply N; now split|reflexivity].
      * apply O2. intros k Hk [= ->]. contradiction.
Qed.
Lemma times_trans c1 c2 n a b d : entry_times c1 n a b -> entry_times c2 n b d -> entry_times (fun mu => (c2 mu * c1 mu)%C) n a d.
Proof using.
  intros H1 H2 i mu. destruct (H1 i mu) as [A1 B1], (H2 i mu) as [A2 B2]. split.
  - intros Hi Hmu. specialize (A1 Hi Hmu). specialize (A2 Hi Hmu). destruct (a i mu) as [V|].
    + destruct A1 as (V' & E1 & M1). rewrite E1 in A2. destruct A2 as (V'' & E2 & M2). exists V''. split; [exact E2|]. rewrite M2, <- mscale_mscale. intros p q Hp Hq. unfold mscale. now rewrite (M1 p q Hp Hq).
    + now rewrite A1 in A2.
  - intros N. rewrite B2, B1 by exact N. reflexivity.
Qed.
Lemma times_one n a : entry_times (fun _ => RtoC 1) n a a.
Proof using. intros i mu. split; [|reflexivity]. intros _ _. destruct (a i mu) as [V|]; [|reflexivity]. exists V. split; [reflexivity|]. intros p q _ _. unfold mscale. ring. Qed.
Lemma times_ext c1 c2 n a b : (forall mu, (mu < 4)%nat -> c1 mu = c2 mu) -> entry_times c1 n a b -> entry_times c2 n a b.
Proof using.
  intros E H i mu. destruct (H i mu) as [A B]. split; [|exact B]. intros Hi Hmu. specialize (A Hi Hmu). destruct (a i mu) as [V|]; [|exact A]. now rewrite <- (E mu Hmu).
Qed.
Lemma adapt_ok r conf old new b e : let '(conf', old') := adapt_theta g ord r conf old new b e in
  entry_times (fun mu => expi ((new mu - old mu) * PI / IZR G.[mu])) (nsites g b e) conf conf' /\ (forall mu, (mu < 4)%nat -> old' mu = new mu).
Proof using Ho.
  unfold adapt_theta. split; [|intros mu Hmu; apply Nat.ltb_lt in Hmu; now rewrite Hmu]. destruct (existsb _ dirs) eqn:E; [apply put_ok|].
  apply times_ext with (2 := times_one _ conf). intros mu Hmu. assert (K : old mu = new mu).
  { destruct (Req_EM_T (old mu) (new mu)) as [|N]; [assumption|]. exfalso. rewrite <- Bool.not_true_iff_false in E. apply E. apply existsb_exists. exists mu. split; [now apply in_dirs|]. destruct (Req_EM_T (old mu) (new mu)); [contradiction|reflexivity]. }
  rewrite K. replace ((new mu - new mu) * PI / IZR G.[mu])%R with 0%R by (unfold Rdiv; ring). symmetry. apply expi_0.
Qed.
End P.
