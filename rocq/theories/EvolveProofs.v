From Coq Require Import Reals Lra Lia List.
From Coquelicot Require Import Complex.
From Verif Require Import CplxModel CplxSpec CplxProofs CplxStores MatModel MatSpec MatProofs MatRun MatProofs2 MatProofs3 MatAlg ExpModel ExpSpec ExpAlg ExpVal ExpTrig ExpMain EvolveModel EvolveSpec.
Import ListNotations.
Open Scope R_scope.
Set Bullet Behavior "Strict Subproofs".

(** ** the value of the exponential, for any argument *)
Definition exv_c (x : cmat) : C * C * C := if Rlt_dec (exp_c1 x) 4e-3 then small_f (exp_c0 x) (exp_c1 x) else coefs (exp_c0 x) (exp_c1 x).
Definition exv (x : cmat) : cmat := poly2 x (exv_c x).
Lemma exv_c_proper x y : meq x y -> exv_c x = exv_c y.
Proof. intros H. unfold exv_c, exp_c1, exp_c0. rewrite (trace_proper _ _ (mmul_proper _ _ H _ _ H)), (det_proper _ _ H). reflexivity. Qed.
Global Instance exv_proper : Morphisms.Proper (Morphisms.respectful meq meq) exv.
Proof.
  intros x y H. unfold exv. rewrite (exv_c_proper x y H). destruct (exv_c y) as [[a b] d]. unfold poly2.
  intros i j Hi Hj. unfold madd, mscale. rewrite (H i j Hi Hj). do 2 f_equal. apply (mmul_proper _ _ H _ _ H i j Hi Hj).
Qed.
Lemma exv_ok out Q iQ iQ2 f :
  out <> iQ -> out <> iQ2 -> iQ <> iQ2 -> Q <> iQ -> Q <> iQ2 -> (forall k, ~ in_mat out f@[k] /\ ~ in_mat iQ f@[k] /\ ~ in_mat iQ2 f@[k]) ->
  sets_mat_loc (fun p => in_mat iQ p \/ in_mat iQ2 p \/ exists k, p = f@[k]) (safe_hermitian_exact_i_exponentiate out Q iQ iQ2 f) out (fun m => exv (mat m Q)).
Proof.
  intros Ho Ho2 Hi HQ HQ2 Hf m.
  unfold safe_hermitian_exact_i_exponentiate. rewrite then_run. unfold prepareIngredients. cbv zeta.
  destruct (su3_copy_ok iQ Q iQ 0 0 m) as [A1 F1]. set (m1 := su3_copy iQ Q m) in *. cbv beta in A1.
  rewrite su3_real_det_ok.
  destruct (unsafe_su3_prod_su3_ok iQ2 iQ iQ (not_eq_sym Hi) (not_eq_sym Hi) m1) as [A2 F2]. set (m2 := unsafe_su3_prod_su3 _ _ _ _ m1) in *. cbv beta in A2.
  rewrite su3_real_trace_ok.
  assert (Apart : forall a b i j, a <> b -> ~ in_mat a b@[i]@[j]) by (intros a b i j Hb (k & l & _ & _ & E); apply Hb; injection E; congruence).
  set (x := mat m Q) in *.
  assert (Ed : det (mat m1 iQ) = det x) by (rewrite A1; reflexivity).
  assert (X2 : meq (mat m2 iQ2) (mmul x x)) by (rewrite A2, A1; reflexivity).
  assert (X1 : meq (mat m2 iQ) x). { intros i j Hi' Hj. rewrite <- (A1 i j Hi' Hj). unfold mat. apply F2; [now apply Apart, not_eq_sym|tauto]. }
  rewrite Ed, (trace_proper _ _ X2). fold (exp_c0 x) (exp_c1 x).
  set (m3' := if Rlt_dec _ _ then _ else _).
  assert (E3 : m3' = upd (upd (upd m2 f@[0%nat] (cof3 0 (exv_c x))) f@[1%nat] (cof3 1 (exv_c x))) f@[2%nat] (cof3 2 (exv_c x))).
  { unfold m3', exv_c. destruct (Rlt_dec (exp_c1 x) 4e-3).
    - destruct (small_f (exp_c0 x) (exp_c1 x)) as [[f0 f1] f2]. rewrite !then_run, !set_cplx_st. reflexivity.
    - apply big_f_st. }
  rewrite E3. clear E3 m3'.
  set (m3 := upd _ f@[2%nat] _).
  destruct (ing_ok out iQ iQ2 f m3 Ho Ho2 (fun k => proj1 (Hf k))) as [A4 F4].
  set (m4 := safe_hermitian_exact_i_exponentiate_ing _ _ _ _ m3) in *. cbv zeta in A4, F4.
  assert (F3 : forall p, (forall k, p <> f@[k]) -> m3 p = m2 p) by (intros p Hp; unfold m3; rewrite !upd_other by apply Hp; reflexivity).
  assert (Pf : forall b k i j, ~ in_mat b f@[k] -> (i < 3)%nat -> (j < 3)%nat -> b@[i]@[j] <> f@[k]) by (intros b k i j H Hi' Hj E; apply H; exists i, j; auto).
  unfold exv. set (F := exv_c x) in *.
  split.
  { intros i j Hi' Hj. rewrite (A4 i j Hi' Hj), poly2_cof. unfold mat.
    rewrite !(F3 _ (fun k => Pf iQ k i j (proj1 (proj2 (Hf k))) Hi' Hj)), !(F3 _ (fun k => Pf iQ2 k i j (proj2 (proj2 (Hf k))) Hi' Hj)).
    fold (mat m2 iQ i j). fold (mat m2 iQ2 i j). rewrite (X1 i j Hi' Hj), (X2 i j Hi' Hj).
    unfold m3. rewrite upd_same, !(upd_other _ f@[2%nat]) by (intros E; injection E; congruence).
    rewrite upd_same, !(upd_other _ f@[1%nat]) by (intros E; injection E; congruence). rewrite upd_same. reflexivity. }
  intros p P1 P2. rewrite F4, F3, F2, F1 by (first [tauto | intros k E; apply P2; right; right; now exists k]). reflexivity.
Qed.

(** ** loops on the links *)
Definition other (a : path) (ivol mu : nat) (p : path) : Prop := exists ivol' mu', (ivol', mu') <> (ivol, mu) /\ in_mat a@[ivol']@[mu'] p.
Lemma in_mat_link a iv mu iv' mu' p : in_mat a@[iv]@[mu] p -> in_mat a@[iv']@[mu'] p -> iv = iv' /\ mu = mu'.
Proof. intros (i & j & _ & _ & ->) (i' & j' & _ & _ & E). unfold at_ in E. injection E. auto. Qed.
Section Links.
Variables (a : path) (loc : path -> Prop) (body : nat -> nat -> mem -> mem) (V : nat -> nat -> mem -> cmat) (n : nat).
Hypothesis Hb : forall iv mu, (iv < n)%nat -> (mu < 4)%nat -> sets_mat_loc loc (body iv mu) a@[iv]@[mu] (V iv mu).
Hypothesis HV : forall iv mu m m', (iv < n)%nat -> (mu < 4)%nat -> (forall p, ~ other a iv mu p -> ~ loc p -> m p = m' p) -> meq (V iv mu m) (V iv mu m').
Hypothesis Hl : forall iv mu p, in_mat a@[iv]@[mu] p -> ~ loc p.
Lemma fold_links ks : NoDup ks -> (forall k, In k ks -> (fst k < n /\ snd k < 4)%nat) -> forall m,
  let m' := fold_left (fun m k => body (fst k) (snd k) m) ks m in
  (forall iv mu, In (iv, mu) ks -> meq (mat m' a@[iv]@[mu]) (V iv mu m)) /\
  (forall p, (forall iv mu, In (iv, mu) ks -> ~ in_mat a@[iv]@[mu] p) -> ~ loc p -> m' p = m p).
Proof.
  induction ks as [|[iv0 mu0] ks IH]; intros ND HB m m'; [split; [intros ? ? []|reflexivity]|].
  apply NoDup_cons_iff in ND. destruct ND as [N0 ND].
  destruct (HB (iv0, mu0) (or_introl eq_refl)) as [B1 B2]. cbn [fst snd] in B1, B2.
  destruct (Hb iv0 mu0 B1 B2 m) as [E0 F0].
  destruct (IH ND (fun k Hk => HB k (or_intror Hk)) (body iv0 mu0 m)) as [I1 I2].
  subst m'. cbn [fold_left fst snd]. set (m1 := body iv0 mu0 m) in *. split.
  - intros iv mu [E|Hk].
    + injection E; intros <- <-. rewrite <- E0. intros i j Hi Hj. unfold mat. apply I2.
      * intros iv mu Hk Hin. destruct (in_mat_link a iv0 mu0 iv mu a@[iv0]@[mu0]@[i]@[j]) as [<- <-]; [exists i, j; auto|exact Hin|contradiction].
      * apply (Hl iv0 mu0). exists i, j; auto.
    + rewrite (I1 iv mu Hk). destruct (HB (iv, mu) (or_intror Hk)) as [B3 B4]. cbn [fst snd] in B3, B4. apply HV; [exact B3|exact B4|].
      intros p Hp Hp'. apply F0; [|exact Hp']. intros Hin. apply Hp. exists iv0, mu0. split; [|exact Hin]. intros E. rewrite E in N0. contradiction.
  - intros p Hp Hp'. rewrite I2; [apply F0; [apply Hp; now left|exact Hp']|intros iv mu Hk; apply Hp; now right|exact Hp'].
Qed.
Lemma for_links_ok m : (forall iv mu, (iv < n)%nat -> (mu < 4)%nat -> meq (mat (for_links n body m) a@[iv]@[mu]) (V iv mu m)) /\
  (forall p, (forall iv mu, (iv < n)%nat -> (mu < 4)%nat -> ~ in_mat a@[iv]@[mu] p) -> ~ loc p -> for_links n body m p = m p).
Proof.
  unfold for_links, unroll_for. rewrite !Nat.sub_0_r. rewrite fold_nested.
  assert (I : forall iv mu, In (iv, mu) (list_prod (seq 0 n) (seq 0 NDIM)) <-> (iv < n /\ mu < 4)%nat).
  { intros iv mu. rewrite in_prod_iff, !in_seq. unfold NDIM. lia. }
  destruct (fold_links (list_prod (seq 0 n) (seq 0 NDIM))) with (m := m) as [A B].
  - apply NoDup_list_prod; apply seq_NoDup.
  - intros [iv mu] H. now apply I.
  - split.
    + intros iv mu H1 H2. apply A. now apply I.
    + intros p H1 H2. apply B; [|exact H2]. intros iv mu H. apply I in H. apply H1; tauto.
Qed.
End Links.

(** ** the steps on the values *)
Definition kickv (g : field -> field) (dt : R) (s : field * field) : field * field :=
  (fst s, fun iv mu => msub (snd s iv mu) (mscale (Ci * RtoC dt)%C (force g (fst s) iv mu))).
Definition driftv (dt : R) (s : field * field) : field * field :=
  (fun iv mu => mmul (exv (mscale (RtoC dt) (snd s iv mu))) (fst s iv mu), snd s).
Definition state (m : mem) : field * field := (load m v_conf, load m v_H).
Definition seqv (n : nat) (s s' : field * field) : Prop := feq n (fst s) (fst s') /\ feq n (snd s) (snd s').

Ltac pathneq := intros; unfold at_, v_conf, v_H, v_F, v_t1, v_t2, v_iQ, v_iQ2, v_f, v_d, v_temp; first [congruence | intro; discriminate].
Ltac notin := intros (?i & ?j & _ & _ & ?E); unfold at_, v_conf, v_H, v_F, v_t1, v_t2, v_iQ, v_iQ2, v_f, v_d, v_temp in E; discriminate E.
Lemma kick_body_ok H F iv mu dt : H <> F -> sets_mat (for_cols (fun ic1 => for_cols (fun ic2 =>
    complex_subt_the_prod_idouble H@[iv]@[mu]@[ic1]@[ic2] F@[iv]@[mu]@[ic1]@[ic2] dt))) H@[iv]@[mu]
  (fun m => msub (mat m H@[iv]@[mu]) (mscale (Ci * RtoC dt)%C (mat m F@[iv]@[mu]))).
Proof.
  intros N. set (h := H@[iv]@[mu]). set (f := F@[iv]@[mu]). assert (Nf : f <> h) by (unfold f, h, at_; congruence). clearbody h f.
  go2.
Qed.
Lemma store_body_ok (F : path) iv mu (v : cmat) : sets_mat (for_cols (fun ic1 => for_cols (fun ic2 m => upd m F@[iv]@[mu]@[ic1]@[ic2] (v ic1 ic2)))) F@[iv]@[mu] (fun _ => v).
Proof. set (f := F@[iv]@[mu]). clearbody f. go2. Qed.
Lemma other_not a b iv mu iv' mu' i j : a <> b -> ~ other a iv mu b@[iv']@[mu']@[i]@[j].
Proof. intros N (iv1 & mu1 & _ & (i' & j' & _ & _ & E)). apply N. unfold at_ in E. congruence. Qed.
Lemma other_self a iv mu i j : ~ other a iv mu a@[iv]@[mu]@[i]@[j].
Proof. intros (iv1 & mu1 & N & (i' & j' & _ & _ & E)). apply N. unfold at_ in E. congruence. Qed.
Definition kloc (p : path) : Prop := exists k i j, p = v_temp@[i]@[j] \/ p = v_t1@[i]@[j] \/ p = v_t2@[i]@[j] \/ p = v_iQ@[i]@[j] \/ p = v_iQ2@[i]@[j] \/ p = v_d@[i]@[j] \/ p = v_f@[k].
Definition fieldp (n : nat) (a p : path) : Prop := exists iv mu, (iv < n)%nat /\ (mu < 4)%nat /\ in_mat a@[iv]@[mu] p.
Lemma load_eq n m m' a : (forall iv mu i j, (iv < n)%nat -> (mu < 4)%nat -> (i < 3)%nat -> (j < 3)%nat -> m' a@[iv]@[mu]@[i]@[j] = m a@[iv]@[mu]@[i]@[j]) -> feq n (load m' a) (load m a).
Proof. intros H iv mu H1 H2 i j Hi Hj. now apply H. Qed.
Lemma evolve_momenta_ok n H F dt m : H <> F -> let m' := evolve_lx_momenta_with_force n H F dt m in
  feq n (load m' H) (fun iv mu => msub (load m H iv mu) (mscale (Ci * RtoC dt)%C (load m F iv mu))) /\
  forall p, ~ fieldp n H p -> m' p = m p.
Proof.
  intros N m'. unfold m', evolve_lx_momenta_with_force.
  destruct (for_links_ok H (fun _ => False) _ (fun iv mu m => msub (mat m H@[iv]@[mu]) (mscale (Ci * RtoC dt)%C (mat m F@[iv]@[mu]))) n
    (fun iv mu _ _ => kick_body_ok H F iv mu dt N)) with (m := m) as [A B].
  - intros iv mu m1 m2 _ _ E. intros i j Hi Hj. unfold msub, mscale, mat. rewrite !E; [reflexivity| |tauto| |tauto].
    + now apply other_not.
    + apply other_self.
  - tauto.
  - split; [exact A|]. intros p Hp. apply B; [|tauto]. intros iv mu H1 H2 H3. apply Hp. exists iv, mu. auto.
Qed.
Lemma force_store_ok n g F conf m : let m' := force_do_not_finish n g F conf m in
  feq n (load m' F) (g (load m conf)) /\ forall p, ~ fieldp n F p -> m' p = m p.
Proof.
  intros m'. unfold m', force_do_not_finish. set (v := g (load m conf)).
  destruct (for_links_ok F (fun _ => False) _ (fun iv mu m => v iv mu) n (fun iv mu _ _ => store_body_ok F iv mu (v iv mu))) with (m := m) as [A B].
  - intros iv mu m1 m2 _ _ E. reflexivity.
  - tauto.
  - split; [exact A|]. intros p Hp. apply B; [|tauto]. intros iv mu H1 H2 H3. apply Hp. exists iv, mu. auto.
Qed.
Lemma v_temp_neq a b c : v_temp <> (c :: b :: a).
Proof. discriminate. Qed.
Lemma finish_ok n F conf m : F <> conf -> F <> [] -> conf <> [] -> let m' := force_finish_computation n F conf m in
  feq n (load m' F) (fun iv mu => traceless_part (anti_herm_part (mmul (load m conf iv mu) (load m F iv mu)))) /\
  forall p, ~ fieldp n F p -> ~ in_mat v_temp p -> m' p = m p.
Proof.
  intros N NF NC m'. unfold m', force_finish_computation.
  destruct (for_links_ok F (in_mat v_temp) (fun iv mu => unsafe_su3_prod_su3 v_temp conf@[iv]@[mu] F@[iv]@[mu] NCOL;;
    unsafe_su3_traceless_anti_hermitian_part F@[iv]@[mu] v_temp)
    (fun iv mu m => traceless_part (anti_herm_part (mmul (mat m conf@[iv]@[mu]) (mat m F@[iv]@[mu])))) n) with (m := m) as [A B].
  - intros iv mu _ _ m1. rewrite then_run.
    destruct (unsafe_su3_prod_su3_ok v_temp conf@[iv]@[mu] F@[iv]@[mu] (v_temp_neq _ _ _) (v_temp_neq _ _ _) m1) as [E1 F1].
    set (m2 := unsafe_su3_prod_su3 _ _ _ _ m1) in *.
    destruct (unsafe_su3_traceless_anti_hermitian_part_ok F@[iv]@[mu] v_temp m2) as [E2 F2]. split.
    + rewrite E2. intros i j Hi Hj. unfold traceless_part, anti_herm_part, msub, mscale, dag. cbv beta in E1. rewrite !(E1 _ _ Hi Hj), !(E1 _ _ Hj Hi). do 3 f_equal.
      unfold trace. cbn [csum]. rewrite !E1 by lia. reflexivity.
    + intros p Hp Hp'. rewrite F2, F1 by tauto. reflexivity.
  - intros iv mu m1 m2 _ _ E. 
    assert (E1 : meq (mat m1 conf@[iv]@[mu]) (mat m2 conf@[iv]@[mu])).
    { intros i j Hi Hj. apply E; [now apply other_not|]. intros (i' & j' & _ & _ & E'). unfold at_, v_temp in E'. injection E'. intros. discriminate. }
    assert (E2 : meq (mat m1 F@[iv]@[mu]) (mat m2 F@[iv]@[mu])).
    { intros i j Hi Hj. apply E; [apply other_self|]. intros (i' & j' & _ & _ & E'). unfold at_, v_temp in E'. injection E'. intros. discriminate. }
    pose proof (mmul_proper _ _ E1 _ _ E2) as E3. 
    intros i j Hi Hj. unfold traceless_part, anti_herm_part, msub, mscale, dag. rewrite !(E3 _ _ Hi Hj), !(E3 _ _ Hj Hi). do 3 f_equal.
    unfold trace. cbn [csum]. rewrite !E3 by lia. reflexivity.
  - intros iv mu p (i & j & _ & _ & ->) (i' & j' & _ & _ & E'). unfold at_, v_temp in E'. injection E'. intros. discriminate.
  - split; [exact A|]. intros p Hp Hp'. apply B; [|exact Hp']. intros iv mu H1 H2 H3. apply Hp. exists iv, mu. auto.
Qed.
Lemma drift_ok n dt m : let m' := evolve_lx_conf_with_momenta n v_conf v_H dt m in
  feq n (load m' v_conf) (fun iv mu => mmul (exv (mscale (RtoC dt) (load m v_H iv mu))) (load m v_conf iv mu)) /\
  forall p, ~ fieldp n v_conf p -> ~ kloc p -> m' p = m p.
Proof.
  intros m'. unfold m', evolve_lx_conf_with_momenta.
  assert (NL : forall a iv mu i j, a = v_conf \/ a = v_H -> ~ kloc a@[iv]@[mu]@[i]@[j]).
  { intros a iv mu i j [-> | ->] (k & i' & j' & [E|[E|[E|[E|[E|[E|E]]]]]]); discriminate E. }
  destruct (for_links_ok v_conf kloc (fun iv mu => su3_prod_double v_t1 v_H@[iv]@[mu] dt;;
    safe_hermitian_exact_i_exponentiate v_t2 v_t1 v_iQ v_iQ2 v_f;; safe_su3_prod_su3 v_conf@[iv]@[mu] v_t2 v_conf@[iv]@[mu] v_d)
    (fun iv mu m => mmul (exv (mscale (RtoC dt) (mat m v_H@[iv]@[mu]))) (mat m v_conf@[iv]@[mu])) n) with (m := m) as [A B].
  - intros iv mu _ _ m0. rewrite !then_run.
    destruct (su3_prod_double_ok v_t1 v_H@[iv]@[mu] v_t1 dt 0 m0) as [E1 F1]. set (m1 := su3_prod_double _ _ _ m0) in *.
    destruct (exv_ok v_t2 v_t1 v_iQ v_iQ2 v_f ltac:(pathneq) ltac:(pathneq) ltac:(pathneq) ltac:(pathneq) ltac:(pathneq)
       ltac:(intros k; repeat split; notin) m1) as [E2 F2]. set (m2 := safe_hermitian_exact_i_exponentiate _ _ _ _ _ m1) in *.
    destruct (safe_su3_prod_su3_ok v_conf@[iv]@[mu] v_t2 v_conf@[iv]@[mu] v_d ltac:(pathneq) ltac:(pathneq) m2) as [E3 F3].
    set (m3 := safe_su3_prod_su3 _ _ _ _ m2) in *. cbv beta in E1, E2, E3. split.
    + rewrite E3, E2, E1. apply mmul_proper; [reflexivity|]. intros i j Hi Hj. unfold mat. rewrite F2, F1; [reflexivity|notin|tauto|notin|].
      intros [(i' & j' & _ & _ & E)|[(i' & j' & _ & _ & E)|(k & E)]]; discriminate E.
    + intros p Hp Hp'.
      assert (K : forall v, In v [v_temp; v_t1; v_t2; v_iQ; v_iQ2; v_d] -> ~ in_mat v p).
      { intros v Hv (i & j & _ & _ & ->). apply Hp'. exists 0%nat, i, j. cbn [In] in Hv. intuition congruence. }
      rewrite F3, F2, F1.
      * reflexivity.
      * apply K. cbn. auto.
      * tauto.
      * apply K. cbn. auto.
      * intros [Q|[Q|(k & Q)]]; [revert Q; apply K; cbn; auto 7|revert Q; apply K; cbn; auto 7|]. apply Hp'. exists k, 0%nat, 0%nat. tauto.
      * exact Hp.
      * apply K. cbn. auto 7.
  - intros iv mu m1 m2 _ _ E.
    assert (E1 : meq (mat m1 v_conf@[iv]@[mu]) (mat m2 v_conf@[iv]@[mu])) by (intros i j Hi Hj; apply E; [apply other_self|apply NL; auto]).
    assert (E2 : meq (mat m1 v_H@[iv]@[mu]) (mat m2 v_H@[iv]@[mu])) by (intros i j Hi Hj; apply E; [apply other_not; pathneq|apply NL; auto]).
    rewrite E1, E2. reflexivity.
  - intros iv mu p (i & j & _ & _ & ->). apply NL. auto.
  - split; [exact A|]. intros p Hp Hp'. apply B; [|exact Hp']. intros iv mu H1 H2 H3. apply Hp. exists iv, mu. auto.
Qed.
