(** C91: the background electromagnetic field of the staggered quarks. *)
From Coq Require Import Reals Lra Lia.
From Coquelicot Require Import Coquelicot.
From Verif Require Import Base GeometryModel GeometrySpec GeoMiscModel HaloModel HaloProofs EoModel EoProofs EoProofs2 LabelProofs StapleModel StapleSpec Prop_Staple StapleMain OwnerProofs IldgProofs GfixProofs
  CplxModel CplxProofs MatModel MatSpec MatProofs MatProofs2 MatAlg MatProofs4 GaugeModel GaugeSpec GaugeProofs BackModel BackSpec BackProofs Prop_Bound BackFieldSpec BackEo BackField Prop_Geometry Prop_Gfix.
Set Bullet Behavior "Strict Subproofs".
Open Scope Z_scope.

Section F.
Context (g : grid) (Hv : valid_grid g = true) (Heo : eo_grid_ok g = true) (ord : Z -> nat -> nat -> nat -> Z -> Z -> list Z) (Ho : any_order ord).
Notation G := (glbSize g).
Context (q : R) (E B : nat -> R) (flag : Z).
Definition comp (c : bool * nat * (nat * nat)) : R := let '(el, k, _) := c in if el : bool then E k else B k.
Definition pl (c : bool * nat * (nat * nat)) : nat * nat := snd c.
Definition term (c : bool * nat * (nat * nat)) (x : list Z) (rho : nat) : R :=
  (2 * felt (comp c) * q * PI / IZR G.[fst (pl c)] / IZR G.[snd (pl c)] * IZR (get_args_of_quantization g flag x (fst (pl c)) (snd (pl c)) rho))%R.
Definition amount (l : list (bool * nat * (nat * nat))) (x : list Z) (rho : nat) : R := fold_right (fun c s => (term c x rho + s)%R) 0%R l.
Definition bad (c : bool * nat * (nat * nat)) : Prop := felt (comp c) <> 0%R /\ flag = 2 /\ G.[fst (pl c)] mod 4 <> 0.
Definition em_step (r : Z) (S : option (eofield C)) (c : bool * nat * (nat * nat)) : option (eofield C) := match S with
    | Some S0 => let '(el, k, (mu, nu)) := c in let str := if el : bool then E k else B k in
        if Rlt_dec (/ 10 ^ 10) (Rabs str) then add_em_component g ord r q str flag mu nu S0 else Some S0
    | None => None end.
Lemma em_run r l : 0 <= flag <= 2 -> forall f S, has_u1 g r f S ->
  ((forall c, In c l -> ~ bad c) -> exists S', fold_left (em_step r) l (Some S) = Some S' /\ has_u1 g r (fun x rho => (f x rho * expi (amount l x rho))%C) S') /\
  ((exists c, In c l /\ bad c) -> fold_left (em_step r) l (Some S) = None).
Proof using Ho.
  intros Hf. assert (NN : forall l, fold_left (em_step r) l None = None) by (induction l0 as [|? ? I]; [reflexivity|exact I]).
  induction l as [|c l IH]; intros f S H.
  - split; [intros _|intros (? & [] & _)]. exists S. split; [reflexivity|]. intros p k x mu Hp Hk Hx Hmu. rewrite (H p k x mu Hp Hk Hx Hmu). f_equal. cbn [amount fold_right]. rewrite expi_0. ring.
  - assert (K : (~ bad c -> exists S1, em_step r (Some S) c = Some S1 /\ has_u1 g r (fun x rho => (f x rho * expi (term c x rho))%C) S1) /\ (bad c -> em_step r (Some S) c = None)).
    { destruct c as [[el k] [mu nu]]. unfold bad, term, em_step. cbn [comp pl fst snd]. set (str := if el then E k else B k). unfold felt. destruct (Rlt_dec (/ 10 ^ 10) (Rabs str)) as [L|L].
      - assert (N0 : str <> 0%R). { intros Z0. rewrite Z0, Rabs_R0 in L. assert (P : (0 < / 10 ^ 10)%R) by (apply Rinv_0_lt_compat, pow_lt; lra). lra. }
        pose proof (em_defined g ord r q str flag mu nu S Hf) as D. split.
        + intros N. destruct (proj2 D) as (S1 & E1); [intros [A1 A2]; apply N; repeat split; assumption|]. exists S1. split; [exact E1|]. exact (em_ok g ord Ho r q str flag mu nu f S S1 H E1).
        + intros (_ & A1 & A2). destruct (add_em_component g ord r q str flag mu nu S) as [S1|]; [|reflexivity]. exfalso. apply (proj1 D); [eauto|now split].
      - split; [intros _|intros (? & _); contradiction]. exists S. split; [reflexivity|]. intros p j x rho Hp Hj Hx Hrho. rewrite (H p j x rho Hp Hj Hx Hrho). f_equal.
        replace (2 * 0 * q * PI / IZR G.[mu] / IZR G.[nu] * IZR (get_args_of_quantization g flag x mu nu rho))%R with 0%R by (unfold Rdiv; ring). rewrite expi_0. ring. }
    destruct K as [K1 K2]. cbn [fold_left]. split.
    + intros N. destruct (K1 (N c (or_introl eq_refl))) as (S1 & -> & H1). destruct (proj1 (IH _ S1 H1)) as (S2 & E2 & H2); [intros c' Hc'; apply N; now right|]. exists S2. split; [exact E2|].
      intros p j x rho Hp Hj Hx Hrho. rewrite (H2 p j x rho Hp Hj Hx Hrho). f_equal. change (amount (c :: l) x rho) with (term c x rho + amount l x rho)%R. rewrite expi_plus. ring.
    + intros (c' & Hc' & Bc'). cbn [In] in Hc'. destruct Hc' as [Hc'|Hc']; [subst c'; rewrite (K2 Bc'); apply NN|]. destruct (em_step r (Some S) c) as [S1|] eqn:E1; [|apply NN].
      assert (NB : ~ bad c) by (intros Bc; discriminate (K2 Bc)). destruct (K1 NB) as (S1' & E1' & H1). assert (S1' = S1) by congruence. subst S1'. apply (IH _ S1 H1). eauto.
Qed.
Definition angle (im : R) (x : list Z) (rho : nat) : R :=
  ((if Nat.eqb rho 0 then (im - 1) * PI / IZR G.[0] else 0) + (if flag =? 0 then 0 else amount em_planes x rho))%R.
Lemma init_run r im S0 : 0 <= flag <= 2 -> ((forall c, In c em_planes -> ~ bad c) -> exists S, init_backfield g ord r im q E B flag S0 = Some S /\ has_u1 g r (phases (angle im)) S) /\
  ((exists c, In c em_planes /\ bad c) -> init_backfield g ord r im q E B flag S0 = None).
Proof using Ho.
  intros Hf. unfold init_backfield, add_em_field_to_backfield. pose proof (im_pot_ok g ord Ho r im _ _ (to_id_ok g ord Ho r S0)) as H0. set (S1 := add_im_pot_to_backfield _ _ _ _ _) in *. set (f1 := fun (x : list Z) mu => if Nat.eqb mu 0 then _ else _) in H0.
  destruct (Z.eqb_spec flag 0) as [F0|F0].
  - split; [|intros (c & _ & _ & F2 & _); exfalso; clear -F0 F2; lia]. intros _. eexists. split; [reflexivity|]. pose proof (anti_ok g ord Ho r 0 f1 S1 H0) as H2. intros p k x mu Hp Hk Hx Hmu. rewrite (H2 p k x mu Hp Hk Hx Hmu). f_equal. unfold phases, angle, f1. rewrite F0. cbn [Z.eqb].
    destruct (Nat.eqb mu 0); [|rewrite Rplus_0_r; symmetry; apply expi_0]. rewrite Cmult_1_l, <- expi_plus. f_equal. unfold Rdiv. ring.
  - fold (em_step r). destruct (em_run r em_planes Hf f1 S1 H0) as [A1 A2]. split.
    + intros N. destruct (A1 N) as (S2 & E2 & H2). change (fold_left _ em_planes (Some S1)) with (fold_left (em_step r) em_planes (Some S1)). rewrite E2. cbn [option_map]. eexists. split; [reflexivity|].
      pose proof (anti_ok g ord Ho r 0 _ S2 H2) as H3. intros p k x mu Hp Hk Hx Hmu. rewrite (H3 p k x mu Hp Hk Hx Hmu). f_equal. unfold phases, angle, f1. apply Z.eqb_neq in F0. rewrite F0.
      destruct (Nat.eqb mu 0).
      * rewrite Cmult_1_l, <- !expi_plus. f_equal. unfold Rdiv. ring.
      * rewrite Cmult_1_l. f_equal. ring.
    + intros Hb. change (fold_left _ em_planes (Some S1)) with (fold_left (em_step r) em_planes (Some S1)). now rewrite A2.
Qed.
(** planes *)
Lemma planes_of c : In c em_planes -> In (pl c) planes /\ comp c = strength E B (fst (pl c)) (snd (pl c)).
Proof using. intros H. cbn [em_planes In] in H. repeat (destruct H as [<-|H]; [cbn; tauto|]). destruct H. Qed.
Lemma of_planes mu nu : In (mu, nu) planes -> exists c, In c em_planes /\ pl c = (mu, nu) /\ comp c = strength E B mu nu.
Proof using.
  intros H. cbn [planes In] in H. repeat (destruct H as [[= <- <-]|H]; [match goal with |- exists c, _ /\ pl c = ?p /\ _ => let x := eval cbv in (find (fun c => (Nat.eqb (fst (snd c)) (fst p) && Nat.eqb (snd (snd c)) (snd p))%bool) em_planes) in match x with Some ?c => exists c end end; cbn; tauto|]). destruct H.
Qed.
Lemma curl_amount l x a b : curl G (amount l) x a b = fold_right (fun c s => (curl G (term c) x a b + s)%R) 0%R l.
Proof using. induction l as [|c l IH]; [unfold curl; cbn; ring|]. cbn [fold_right]. rewrite <- IH. unfold curl. change (amount (c :: l)) with (fun x rho => (term c x rho + amount l x rho)%R). cbv beta. ring. Qed.
Lemma curl_term c x a b : curl G (term c) x a b = (2 * felt (comp c) * q * PI / IZR G.[fst (pl c)] / IZR G.[snd (pl c)] * IZR (zcurl G (fun x rho => get_args_of_quantization g flag x (fst (pl c)) (snd (pl c)) rho) x a b))%R.
Proof using. unfold curl, term, zcurl. rewrite !minus_IZR, plus_IZR. ring. Qed.

Definition strain (x : list Z) (mu nu : nat) : Z :=
  if flag =? 0 then 0 else if flag =? 1 then 1 - (if (top G.[mu] x.[mu] && top G.[nu] x.[nu])%bool then G.[mu] * G.[nu] else 0) else if x.[mu] <? G.[mu] / 2 then 1 else -1.
Lemma planes_dirs mu nu : In (mu, nu) planes -> (mu < 4)%nat /\ (nu < 4)%nat /\ mu <> nu.
Proof using. clear. intros H. cbn [planes In] in H. repeat (destruct H as [[= <- <-]|H]; [lia|]). destruct H. Qed.
Lemma planes_other mu nu a b : In (mu, nu) planes -> In (a, b) planes -> (Nat.eqb mu a && Nat.eqb nu b)%bool = false -> ~ ((a = mu \/ a = nu) /\ (b = mu \/ b = nu)).
Proof using.
  clear. intros H K. cbn [planes In] in H, K.
  repeat (destruct H as [[= <- <-]|H]; [repeat (destruct K as [[= <- <-]|K]; [cbn; try discriminate; lia|]); destruct K|]). destruct H.
Qed.
Lemma curl_c c x a b : 1 <= flag <= 2 -> ~ bad c -> In c em_planes -> In (a, b) planes -> in_box x G ->
  curl G (term c) x a b = if (Nat.eqb (fst (pl c)) a && Nat.eqb (snd (pl c)) b)%bool then (flux G q E B a b * IZR (strain x a b))%R else 0%R.
Proof using Hv Heo.
  intros Hf NB Hc Hp Hx. rewrite curl_term. destruct (planes_of c Hc) as [Hpc Ec]. destruct (pl c) as [mu nu] eqn:Epl. cbn [fst snd] in *. destruct (planes_dirs mu nu Hpc) as (D1 & D2 & D3). destruct (planes_dirs a b Hp) as (D4 & D5 & D6).
  unfold bad in NB. rewrite Epl in NB. cbn [fst] in NB. destruct (Req_EM_T (felt (comp c)) 0) as [Z0|Z0].
  { rewrite Z0. replace (2 * 0 * q * PI / IZR G.[mu] / IZR G.[nu])%R with 0%R by (unfold Rdiv; ring). rewrite Rmult_0_l. destruct (_ && _)%bool eqn:Q; [|reflexivity]. apply andb_prop in Q as [Q1 Q2]. apply Nat.eqb_eq in Q1, Q2. subst a b. unfold flux. rewrite <- Ec, Z0. unfold Rdiv. ring. }
  assert (Zc : zcurl G (fun x rho => get_args_of_quantization g flag x mu nu rho) x a b = if (Nat.eqb mu a && Nat.eqb nu b)%bool then strain x a b else 0).
  { assert (flag = 1 \/ flag = 2) as [F|F] by (clear -Hf; lia); unfold get_args_of_quantization, strain; rewrite F; cbn [Z.eqb Pos.eqb].
    - destruct (_ && _)%bool eqn:Q; [|now apply zcurl1_other; try assumption; apply planes_other]. apply andb_prop in Q as [Q1 Q2]. apply Nat.eqb_eq in Q1, Q2. subst a b. now apply zcurl1_same.
    - assert (M4 : G.[mu] mod 4 = 0) by (destruct (Z.eq_dec (G.[mu] mod 4) 0) as [|N4]; [assumption|]; exfalso; apply NB; repeat split; assumption).
      destruct (_ && _)%bool eqn:Q; [|now apply zcurl2_other; try assumption; apply planes_other]. apply andb_prop in Q as [Q1 Q2]. apply Nat.eqb_eq in Q1, Q2. subst a b. now apply zcurl2_same. }
  rewrite Zc. destruct (_ && _)%bool eqn:Q; [|ring]. apply andb_prop in Q as [Q1 Q2]. apply Nat.eqb_eq in Q1, Q2. subst a b. unfold flux. rewrite <- Ec.
  assert (G1 : IZR G.[mu] <> 0%R) by (apply not_0_IZR; pose proof (in_range g Hv x mu Hx D1) as R; clear -R; lia). assert (G2 : IZR G.[nu] <> 0%R) by (apply not_0_IZR; pose proof (in_range g Hv x nu Hx D2) as R; clear -R; lia). field. now split.
Qed.
Lemma curl_angle im x a b : 0 <= flag <= 2 -> (forall c, In c em_planes -> ~ bad c) -> In (a, b) planes -> in_box x G -> curl G (angle im) x a b = (flux G q E B a b * IZR (strain x a b))%R.
Proof using Hv Heo.
  intros Hf NB Hp Hx. transitivity (if flag =? 0 then 0%R else curl G (amount em_planes) x a b).
  { unfold curl, angle. destruct (flag =? 0); ring. }
  destruct (Z.eqb_spec flag 0) as [F|F]; [unfold strain; rewrite F; cbn [Z.eqb]; ring|]. rewrite curl_amount.
  assert (X : forall c, In c em_planes -> curl G (term c) x a b = if (Nat.eqb (fst (pl c)) a && Nat.eqb (snd (pl c)) b)%bool then (flux G q E B a b * IZR (strain x a b))%R else 0%R).
  { intros c Hc. apply curl_c; auto. clear -Hf F. lia. }
  assert (FE : fold_right (fun c s => (curl G (term c) x a b + s)%R) 0%R em_planes = fold_right (fun c s => ((if (Nat.eqb (fst (pl c)) a && Nat.eqb (snd (pl c)) b)%bool then (flux G q E B a b * IZR (strain x a b))%R else 0%R) + s)%R) 0%R em_planes).
  { clear -X. induction em_planes as [|c l IH]; [reflexivity|]. cbn [fold_right]. rewrite IH by (intros c' Hc'; apply X; now right). rewrite X by (now left). reflexivity. }
  rewrite FE.
  clear -Hp. generalize (flux G q E B a b * IZR (strain x a b))%R as V. intros V. cbn [planes In] in Hp. repeat (destruct Hp as [[= <- <-]|Hp]; [cbn; ring|]). destruct Hp.
Qed.
Lemma angle_time im x : in_box x G -> flag <> 1 \/ (forall k, (k < 3)%nat -> felt (E k) = 0%R) -> 0 <= flag <= 2 -> angle im x 0 = ((im - 1) * PI / IZR G.[0])%R.
Proof using Hv Heo.
  intros Hx Hz Hf. unfold angle. cbn [Nat.eqb]. destruct (Z.eqb_spec flag 0) as [F|F]; [ring|].
  assert (X : forall c, In c em_planes -> term c x 0%nat = 0%R).
  { intros c Hc. unfold term. assert (flag = 1 \/ flag = 2) as [F1|F1] by (clear -Hf F; lia); unfold get_args_of_quantization; rewrite F1; cbn [Z.eqb Pos.eqb].
    - destruct Hz as [Hz|Hz]; [contradiction|]. cbn [em_planes In] in Hc.
      repeat (destruct Hc as [<-|Hc]; [cbn [comp pl fst snd]; first [rewrite Hz by (clear; lia); unfold Rdiv; ring|rewrite args1 by (assumption || (clear; lia)); cbn [Nat.eqb]; ring]|]). destruct Hc.
    - cbn [em_planes In] in Hc. repeat (destruct Hc as [<-|Hc]; [unfold get_args_of_half_half_quantization; cbn [pl fst snd Nat.eqb]; ring|]). destruct Hc. }
  replace (amount em_planes x 0%nat) with 0%R; [ring|]. clear -X. induction em_planes as [|c l IH]; [reflexivity|]. change (amount (c :: l) x 0%nat) with (term c x 0%nat + amount l x 0%nat)%R. rewrite X by (now left). rewrite <- IH; [ring|]. intros c' Hc'. apply X. now right.
Qed.
Lemma line_const G0 (A : list Z -> nat -> R) mu a n : length G0 = 4%nat -> (mu < 4)%nat -> (forall x, in_box x G0 -> A x mu = a) -> forall x, in_box x G0 -> u1_line G0 (phases A) x mu n = expi (INR n * a).
Proof using.
  intros L4 Hmu HA. induction n as [|n IH]; intros x Hx; [cbn [u1_line INR]; now rewrite Rmult_0_l, expi_0|]. cbn [u1_line]. rewrite IH by (apply shift_in_box; [exact Hx|rewrite L4; exact Hmu]).
  unfold phases. rewrite (HA x Hx), <- expi_plus. f_equal. rewrite S_INR. ring.
Qed.
End F.

(** the field through a plaquette of a plane with a component *)
Definition expected_plaquette (G : list Z) (flag : Z) (q : R) (E B : nat -> R) (x : list Z) (mu nu : nat) : C :=
  if flag =? 0 then RtoC 1
  else if flag =? 1 then (expi (flux G q E B mu nu) * (if ((x.[mu] =? G.[mu] / 2 - 1) && (x.[nu] =? G.[nu] / 2 - 1))%bool then expi (- (2 * PI * (q * felt (strength E B mu nu)))) else RtoC 1))%C
  else if x.[mu] <? G.[mu] / 2 then expi (flux G q E B mu nu) else expi (- flux G q E B mu nu).
Definition quantizable (G : list Z) (flag : Z) (E B : nat -> R) : Prop := flag = 2 -> forall mu nu, In (mu, nu) planes -> felt (strength E B mu nu) <> 0%R -> G.[mu] mod 4 = 0.

(** C91: the field prepared for a quark of charge q is a phase on every link of the lattice; the plaquettes of the planes of the six components have the phase of the
    flux of the component, 2 pi q F/(L_mu L_nu) (with flag 1 there is one plaquette in each plane which compensates the total flux; with flag 2 the flux has opposite signs in the
    two halves of the lattice), so that with flag 1 and q F integer the field is the same everywhere; the lines in time have the phase of the chemical potential, with antiperiodic conditions *)
Theorem C91_field :
  forall g ord im_pot q E B flag S0, valid_grid g = true -> eo_grid_ok g = true -> any_order ord -> 0 <= flag <= 2 -> quantizable (glbSize g) flag E B ->
  exists A, (forall r, 0 <= r < nranks g -> exists S, init_backfield g ord r im_pot q E B flag (S0 r) = Some S /\ has_u1 g r (phases A) S) /\
    (forall x mu nu, in_box x (glbSize g) -> In (mu, nu) planes -> u1_plaquette (glbSize g) (phases A) x mu nu = expected_plaquette (glbSize g) flag q E B x mu nu) /\
    (flag = 1 -> forall mu nu n, In (mu, nu) planes -> (q * felt (strength E B mu nu))%R = IZR n -> forall x, in_box x (glbSize g) -> u1_plaquette (glbSize g) (phases A) x mu nu = expi (flux (glbSize g) q E B mu nu)) /\
    (flag <> 1 \/ (forall k, (k < 3)%nat -> felt (E k) = 0%R) -> forall x, in_box x (glbSize g) -> u1_line (glbSize g) (phases A) x 0 (Z.to_nat (glbSize g).[0]) = expi (PI * (im_pot - 1))) /\
    (flag = 0 -> forall x mu, in_box x (glbSize g) -> (0 < mu < 4)%nat -> phases A x mu = RtoC 1).
Proof.
  intros g ord im q E B flag S0 Hv Heo Ho Hf HQ. exists (angle g q E B flag im).
  assert (NB : forall c, In c em_planes -> ~ bad g E B flag c).
  { intros c Hc (F1 & F2 & F3). destruct (planes_of E B c Hc) as [P1 P2]. rewrite P2 in F1. apply F3. destruct (pl c) as [mu nu]. exact (HQ F2 mu nu P1 F1). }
  assert (PL : forall x mu nu, in_box x (glbSize g) -> In (mu, nu) planes -> u1_plaquette (glbSize g) (phases (angle g q E B flag im)) x mu nu = expected_plaquette (glbSize g) flag q E B x mu nu).
  { intros x mu nu Hx Hp. rewrite plaq_curl, (curl_angle g Hv Heo q E B flag im x mu nu Hf NB Hp Hx). unfold strain, expected_plaquette. destruct (flag =? 0); [rewrite Rmult_0_r; apply expi_0|]. destruct (flag =? 1).
    - unfold top. destruct (_ && _)%bool.
      + rewrite <- expi_plus. f_equal. rewrite minus_IZR, mult_IZR. unfold flux. destruct (planes_dirs mu nu Hp) as (D1 & D2 & _).
        assert (G1 : IZR (glbSize g).[mu] <> 0%R) by (apply not_0_IZR; pose proof (in_range g Hv x mu Hx D1) as R; clear -R; lia). assert (G2 : IZR (glbSize g).[nu] <> 0%R) by (apply not_0_IZR; pose proof (in_range g Hv x nu Hx D2) as R; clear -R; lia). field. now split.
      + rewrite Rmult_1_r. ring.
    - destruct (_ <? _); f_equal; ring. }
  split; [|split; [exact PL|split; [|split]]].
  - intros r Hr. now apply (init_run g ord Ho q E B flag r im (S0 r) Hf).
  - intros F mu nu n Hp Hn x Hx. rewrite (PL x mu nu Hx Hp). unfold expected_plaquette. rewrite F. cbn [Z.eqb Pos.eqb]. rewrite Hn. destruct (_ && _)%bool; [|ring].
    replace (- (2 * PI * IZR n))%R with (2 * IZR (- n) * PI)%R by (rewrite opp_IZR; ring). rewrite expi_2PI. ring.
  - intros Hz x Hx. assert (L4 : length (glbSize g) = 4%nat) by (now apply IldgProofs.glb_len).
    rewrite (line_const (glbSize g) (angle g q E B flag im) 0 ((im - 1) * PI / IZR (glbSize g).[0]) _ L4 ltac:(lia)); [| |exact Hx].
    + pose proof (in_range g Hv x 0 Hx ltac:(lia)) as R. rewrite INR_IZR_INZ, Z2Nat.id by (clear -R; lia). f_equal. field. apply not_0_IZR. clear -R; lia.
    + intros y Hy. now apply angle_time.
  - intros F x mu Hx Hmu. unfold phases, angle. rewrite F. cbn [Z.eqb]. destruct (Nat.eqb_spec mu 0) as [M|M]; [clear -Hmu M; lia|]. rewrite Rplus_0_r. apply expi_0.
Qed.
Print Assumptions C91_field.

(** C91: the program stops if and only if the half-half quantization is asked on a lattice on which it is not possible *)
Theorem C91_crash :
  forall g ord r im_pot q E B flag S0, any_order ord -> 0 <= flag <= 2 ->
  init_backfield g ord r im_pot q E B flag S0 = None <-> ~ quantizable (glbSize g) flag E B.
Proof.
  intros g ord r im q E B flag S0 Ho Hf. destruct (init_run g ord Ho q E B flag r im S0 Hf) as [A1 A2]. split.
  - intros N HQ. destruct A1 as (S & E1 & _); [|congruence]. intros c Hc (F1 & F2 & F3). destruct (planes_of E B c Hc) as [P1 P2]. rewrite P2 in F1. apply F3. destruct (pl c) as [mu nu]. exact (HQ F2 mu nu P1 F1).
  - intros NQ. apply A2. assert (DB : forall c, {bad g E B flag c} + {~ bad g E B flag c}).
    { intros c. unfold bad. destruct (Req_EM_T (felt (comp E B c)) 0); [right; tauto|]. destruct (Z.eq_dec flag 2); [|right; tauto]. destruct (Z.eq_dec ((glbSize g).[fst (pl c)] mod 4) 0); [right; tauto|left; tauto]. }
    destruct (Exists_dec (bad g E B flag) em_planes DB) as [X|X]; [apply Exists_exists in X; exact X|]. assert (N : ~ exists c, In c em_planes /\ bad g E B flag c) by (intros K; apply X, Exists_exists, K). exfalso. apply NQ. intros F mu nu Hp Hs. destruct (of_planes E B mu nu Hp) as (c & Hc & Pc & Cc).
    destruct (Z.eq_dec ((glbSize g).[mu] mod 4) 0) as [|D]; [assumption|]. exfalso. apply N. exists c. split; [exact Hc|]. unfold bad. rewrite Cc, Pc. cbn [fst]. repeat split; assumption.
Qed.
Print Assumptions C91_crash.

(** ** C92: adding the field to a configuration and removing it *)
Section K.
Context (g : grid) (Hv : valid_grid g = true) (Heo : eo_grid_ok g = true) (ord : Z -> nat -> nat -> nat -> Z -> Z -> list Z) (Ho : any_order ord).
Notation G := (glbSize g).
Lemma eo_box r p k x : 0 <= r < nranks g -> p = 0 \/ p = 1 -> 0 <= k < locVolh g -> eo_site g r p k x -> in_box x G.
Proof using Hv Heo.
  intros Hr Hp Hk (i & A & Bx). destruct (loc_onto g Hv Heo (coordOfRank g r) (rc_in g Hv r Hr) p k Hp Hk) as (j & Hj & _ & _ & Ej). fold (rank_labels g r) in Ej. fold (rank_eo g r) in Ej. assert (i = j) by congruence. subst j.
  destruct (site_coords g r i Hv Hr Hj) as (y & Ey & By & _). unfold IldgModel.glb_coords in Ey. fold (rank_labels g r) in Ey. assert (x = y) by congruence. now subst y.
Qed.
Lemma phase_eta x mu : in_box x G -> (mu < 4)%nat -> IZR (getStagphases x).[mu] = eta x mu.
Proof using Hv.
  intros Hx Hmu. destruct (C20_stagphases G x (IldgProofs.glb_len g Hv) Hx) as [A _]. destruct (A mu Hmu) as [-> ->]. unfold eta. now destruct (Z.even _).
Qed.
Lemma factors_ok r rem without S (U : list Z -> nat -> cmat) u1 p k x mu v V : (mu < 4)%nat -> in_box x G -> u1 p k mu = Some (S x mu) -> v = Some V -> meq V (U x mu) ->
  exists v', factors rem without r u1 p k x mu v = Some v' /\ meq v' (coupled rem without S U x mu).
Proof using Hv.
  intros Hmu Hx E1 E2 M. unfold factors. rewrite dirs_has. apply Nat.ltb_lt in Hmu as L. rewrite L, E1, E2. cbn [lift2]. eexists. split; [reflexivity|]. rewrite su3_times_ok. unfold coupled. apply mscale_proper'; [|exact M].
  rewrite factor_ok. unfold coupling. f_equal. f_equal. destruct without; [reflexivity|]. now apply phase_eta.
Qed.
Lemma eo_couple r rem without S U u1 conf : 0 <= r < nranks g -> has_u1 g r S u1 -> has_links g r U conf -> has_links g r (coupled rem without S U) (backfield_to_eo_conf g ord r rem without u1 conf).
Proof using Hv Heo Ho.
  intros Hr H1 H2 p k x mu Hp Hk Hx Hmu. rewrite (to_eo_in g ord Ho r rem without u1 conf p k x mu Hp Hk Hx). destruct (H2 p k x mu Hp Hk Hx Hmu) as (V & EV & M).
  apply (factors_ok r rem without S U u1 p k x mu _ V Hmu (eo_box r p k x Hr Hp Hk Hx) (H1 p k x mu Hp Hk Hx Hmu) EV M).
Qed.
Lemma lx_couple r rem without S U u1 conf : 0 <= r < nranks g -> has_u1 g r S u1 -> has_links_lx g r U conf -> has_links_lx g r (coupled rem without S U) (backfield_to_lx_conf g ord r rem without u1 conf).
Proof using Hv Heo Ho.
  intros Hr H1 H2 i x mu Hi Hx Hmu. destruct (to_lx_in g Hv Heo ord Ho r rem without u1 conf i x mu Hr Hi Hx) as (p & k & Hp & Hk & Ei & ->). destruct (H2 i x mu Hi Hx Hmu) as (V & EV & M).
  assert (Hs : eo_site g r p k x) by (exists i; now split).
  apply (factors_ok r rem without S U u1 p k x mu _ V Hmu (eo_box r p k x Hr Hp Hk Hs) (H1 p k x mu Hp Hk Hs Hmu) EV M).
Qed.
Lemma eta_sq x mu : (eta x mu * eta x mu = 1)%R. Proof using. unfold eta. destruct (Z.even _); ring. Qed.
Lemma coupling_undo w (S : list Z -> nat -> C) x mu : (S x mu * Cconj (S x mu))%C = RtoC 1 -> (coupling true w S x mu * coupling false w S x mu)%C = RtoC 1.
Proof using.
  intros H. unfold coupling. destruct w.
  - replace (Cconj (S x mu) * RtoC 1 * (S x mu * RtoC 1))%C with (S x mu * Cconj (S x mu))%C by ring. exact H.
  - replace (Cconj (S x mu) * RtoC (eta x mu) * (S x mu * RtoC (eta x mu)))%C with (S x mu * Cconj (S x mu) * (RtoC (eta x mu) * RtoC (eta x mu)))%C by ring. rewrite H, <- RtoC_mult, eta_sq. ring.
Qed.
Lemma eta_plaq x mu nu : in_box x G -> (mu < 4)%nat -> (nu < 4)%nat -> mu <> nu -> (eta x mu * eta (step G x mu) nu * (eta x nu * eta (step G x nu) mu) = -1)%R.
Proof using Hv Heo.
  intros Hx Hmu Hnu N. assert (L4 : length G = 4%nat) by (now apply IldgProofs.glb_len). destruct (C20_stagphases G x L4 Hx) as [A B].
  assert (EV : forall k, (k < 4)%nat -> Z.even G.[k] = true) by (intros k Hk; destruct (G_even g Hv Heo k Hk) as (h & -> & _); now rewrite Z.even_mul).
  specialize (B EV mu nu Hmu Hnu N). assert (Q : forall y k, in_box y G -> (k < 4)%nat -> IZR (getStagphase y k) = eta y k).
  { intros y k Hy Hk. destruct (C20_stagphases G y L4 Hy) as [A' _]. destruct (A' k Hk) as [_ ->]. unfold eta. now destruct (Z.even _). }
  assert (Bm : in_box (step G x mu) G) by (apply shift_in_box; [exact Hx|rewrite L4; exact Hmu]). assert (Bn : in_box (step G x nu) G) by (apply shift_in_box; [exact Hx|rewrite L4; exact Hnu]).
  rewrite <- !Q by assumption. apply (f_equal IZR) in B. rewrite !mult_IZR in B. unfold step. rewrite <- B. ring.
Qed.
Lemma scaled_plaq (c : list Z -> nat -> C) U x mu nu : meq (plaquette G (fun x mu => mscale (c x mu) (U x mu)) x mu nu) (mscale (u1_plaquette G c x mu nu) (plaquette G U x mu nu)).
Proof using. unfold plaquette, u1_plaquette. rewrite !mscale_mul, dag_scale, mscale_mul. reflexivity. Qed.
End K.

(** C92: adding, or removing, a background field multiplies each link of the lattice by the phase of the field, or by its conjugate, and if asked by the staggered sign;
    it does the same on a configuration which is split by parity and on one which is not, and nothing else is touched *)
Theorem C92_couple :
  forall g ord r rem without S U u1, valid_grid g = true -> eo_grid_ok g = true -> any_order ord -> 0 <= r < nranks g -> has_u1 g r S u1 ->
  (forall conf, has_links g r U conf -> has_links g r (coupled rem without S U) (backfield_to_eo_conf g ord r rem without u1 conf)) /\
  (forall conf, has_links_lx g r U conf -> has_links_lx g r (coupled rem without S U) (backfield_to_lx_conf g ord r rem without u1 conf)) /\
  (forall conf p k mu, ~ ((p = 0 \/ p = 1) /\ 0 <= k < locVolh g) -> backfield_to_eo_conf g ord r rem without u1 conf p k mu = conf p k mu).
Proof.
  intros g ord r rem without S U u1 Hv Heo Ho Hr H1. split; [|split].
  - intros conf H. now apply eo_couple.
  - intros conf H. now apply lx_couple.
  - intros conf p k mu N. now apply to_eo_out.
Qed.
Print Assumptions C92_couple.

(** C92: the plaquettes are multiplied by those of the field, and by -1 if the staggered signs are there *)
Theorem C92_plaquette :
  forall g without S U, valid_grid g = true -> eo_grid_ok g = true -> forall x mu nu, in_box x (glbSize g) -> (mu < 4)%nat -> (nu < 4)%nat -> mu <> nu ->
  meq (plaquette (glbSize g) (coupled false without S U) x mu nu)
      (mscale (u1_plaquette (glbSize g) S x mu nu * RtoC (if without : bool then 1 else -1))%C (plaquette (glbSize g) U x mu nu)).
Proof.
  intros g w S U Hv Heo x mu nu Hx Hmu Hnu N. unfold coupled. rewrite (scaled_plaq g (coupling false w S)). apply mscale_proper'; [|reflexivity]. unfold u1_plaquette, coupling. rewrite !Cconj_mult.
  assert (CR : forall a : R, Cconj (RtoC a) = RtoC a) by (intros a; unfold Cconj, RtoC; cbn [fst snd]; f_equal; ring). rewrite !CR. destruct w; [ring|].
  rewrite <- (eta_plaq g Hv Heo x mu nu Hx Hmu Hnu N), !RtoC_mult. ring.
Qed.
Print Assumptions C92_plaquette.

(** C92: removing a field of phases which has been added gives the links back *)
Theorem C92_undo :
  forall g ord r without S U u1, valid_grid g = true -> eo_grid_ok g = true -> any_order ord -> 0 <= r < nranks g -> has_u1 g r S u1 ->
  (forall x mu, in_box x (glbSize g) -> (mu < 4)%nat -> (S x mu * Cconj (S x mu))%C = RtoC 1) ->
  (forall conf, has_links g r U conf -> has_links g r U (backfield_to_eo_conf g ord r true without u1 (backfield_to_eo_conf g ord r false without u1 conf))) /\
  (forall conf, has_links_lx g r U conf -> has_links_lx g r U (backfield_to_lx_conf g ord r true without u1 (backfield_to_lx_conf g ord r false without u1 conf))).
Proof.
  intros g ord r w S U u1 Hv Heo Ho Hr H1 HS.
  assert (K : forall x mu, in_box x (glbSize g) -> (mu < 4)%nat -> meq (coupled true w S (coupled false w S U) x mu) (U x mu)).
  { intros x mu Hx Hmu. unfold coupled. rewrite mscale_mscale, (coupling_undo w S x mu (HS x mu Hx Hmu)). intros i j _ _. unfold mscale. ring. }
  split; intros conf H.
  - pose proof (eo_couple g Hv Heo ord Ho r true w S _ u1 _ Hr H1 (eo_couple g Hv Heo ord Ho r false w S U u1 conf Hr H1 H)) as Q.
    intros p k x mu Hp Hk Hx Hmu. destruct (Q p k x mu Hp Hk Hx Hmu) as (v & Ev & M). exists v. split; [exact Ev|]. rewrite M. apply K; [exact (eo_box g Hv Heo r p k x Hr Hp Hk Hx)|exact Hmu].
  - pose proof (lx_couple g Hv Heo ord Ho r true w S _ u1 _ Hr H1 (lx_couple g Hv Heo ord Ho r false w S U u1 conf Hr H1 H)) as Q.
    intros i x mu Hi Hx Hmu. destruct (Q i x mu Hi Hx Hmu) as (v & Ev & M). exists v. split; [exact Ev|]. rewrite M. apply K; [|exact Hmu].
    destruct (site_coords g r i Hv Hr Hi) as (y & Ey & By & _). unfold IldgModel.glb_coords in Ey. fold (rank_labels g r) in Ey. assert (x = y) by congruence. now subst y.
Qed.
Print Assumptions C92_undo.

(** C92: the staggered signs alone: each link gets its sign, all the plaquettes change sign, and twice is nothing *)
Theorem C92_signs :
  forall g ord r U conf, valid_grid g = true -> eo_grid_ok g = true -> any_order ord -> 0 <= r < nranks g -> has_links g r U conf ->
  has_links g r (fun x mu => mscale (RtoC (eta x mu)) (U x mu)) (add_or_rem_stagphases_to_conf g ord r conf) /\
  has_links g r U (add_or_rem_stagphases_to_conf g ord r (add_or_rem_stagphases_to_conf g ord r conf)) /\
  (forall x mu nu, in_box x (glbSize g) -> (mu < 4)%nat -> (nu < 4)%nat -> mu <> nu ->
     meq (plaquette (glbSize g) (fun x mu => mscale (RtoC (eta x mu)) (U x mu)) x mu nu) (mscale (RtoC (-1)) (plaquette (glbSize g) U x mu nu))).
Proof.
  intros g ord r U conf Hv Heo Ho Hr H.
  assert (ST : forall U conf, has_links g r U conf -> has_links g r (fun x mu => mscale (RtoC (eta x mu)) (U x mu)) (add_or_rem_stagphases_to_conf g ord r conf)).
  { intros U0 c0 H0 p k x mu Hp Hk Hx Hmu. rewrite (stag_in g ord Ho r c0 p k x mu Hp Hk Hx Hmu). destruct (H0 p k x mu Hp Hk Hx Hmu) as (V & -> & M). cbn [option_map]. eexists. split; [reflexivity|].
    destruct (su3_prodassign_double_ok a_out a_out a_out (IZR (getStagphases x).[mu]) 0 (args V V V)) as [A _].
    intros i j Hi Hj. rewrite (A i j Hi Hj), (phase_eta g Hv x mu (eo_box g Hv Heo r p k x Hr Hp Hk Hx) Hmu). unfold mscale. rewrite <- (M i j Hi Hj). reflexivity. }
  split; [now apply ST|split].
  - pose proof (ST _ _ (ST U conf H)) as Q. intros p k x mu Hp Hk Hx Hmu. destruct (Q p k x mu Hp Hk Hx Hmu) as (v & Ev & M). exists v. split; [exact Ev|]. rewrite M, mscale_mscale, <- RtoC_mult, eta_sq. intros i j _ _. unfold mscale. ring.
  - intros x mu nu Hx Hmu Hnu N. rewrite (scaled_plaq g (fun x mu => RtoC (eta x mu))). apply mscale_proper'; [|reflexivity]. unfold u1_plaquette. rewrite !Cconj_mult.
    assert (CR : forall a : R, Cconj (RtoC a) = RtoC a) by (intros a; unfold Cconj, RtoC; cbn [fst snd]; f_equal; ring). rewrite !CR, <- (eta_plaq g Hv Heo x mu nu Hx Hmu Hnu N), !RtoC_mult. ring.
Qed.
Print Assumptions C92_signs.

(** *** Example: an electric field in direction x with one quantum of flux on the 4x4x2x2 lattice, for a quark of charge 1 on a configuration of identities *)
Definition ex_E (k : nat) : R := if Nat.eqb k 0 then 1%R else 0%R.
Definition ex_B (_ : nat) : R := 0%R.
Lemma felt_0 : felt 0 = 0%R. Proof. unfold felt. now destruct (Rlt_dec _ _). Qed.
Lemma felt_1 : felt 1 = 1%R.
Proof. unfold felt. destruct (Rlt_dec _ _) as [|N]; [reflexivity|]. exfalso. apply N. rewrite Rabs_R1. rewrite <- Rinv_1. apply Rinv_lt_contravar; [|apply Rlt_pow_R1; [lra|lia]]. rewrite Rmult_1_l. apply pow_lt. lra. Qed.
Lemma st_eo : eo_grid_ok st_grid = true. Proof. reflexivity. Qed.
Example C91_ex : forall flag, flag = 1 \/ flag = 2 -> quantizable [4; 4; 2; 2] flag ex_E ex_B.
Proof.
  intros flag _ _ mu nu H. cbn [planes In] in H. repeat (destruct H as [[= <- <-]|H]; [cbn [strength ex_E ex_B Nat.eqb nth]; intros N; first [reflexivity|exfalso; apply N; exact felt_0]|]). destruct H.
Qed.
Example C92_ex : exists u1 S, init_backfield st_grid st_ord 0 0 1 ex_E ex_B 1 (fun _ _ _ => None) = Some u1 /\ has_u1 st_grid 0 S u1 /\
  has_links st_grid 0 (coupled false false S (fun _ _ => mid)) (backfield_to_eo_conf st_grid st_ord 0 false false u1 (fun _ _ _ => Some mid)) /\
  meq (plaquette (glbSize st_grid) (coupled false false S (fun _ _ => mid)) [1; 1; 0; 0] 0 1) (mscale (RtoC (-1) * expi (PI / 8))%C mid).
Proof.
  assert (N0 : 0 <= 0 < nranks st_grid) by (split; [lia|reflexivity]). assert (GE : glbSize st_grid = [4; 4; 2; 2]) by reflexivity.
  destruct (C91_field st_grid st_ord 0 1 ex_E ex_B 1 (fun _ _ _ _ => None) eq_refl st_eo st_ord_ok) as (A & HA & _ & UN & _); [lia|rewrite GE; apply C91_ex; now left|].
  destruct (HA 0 N0) as (u1 & E1 & H1). exists u1, (phases A). split; [exact E1|]. split; [exact H1|]. split.
  - apply (C92_couple st_grid st_ord 0 false false (phases A) (fun _ _ => mid) u1 eq_refl st_eo st_ord_ok N0 H1). intros p k x mu _ _ _ _. exists mid. split; [reflexivity|reflexivity].
  - assert (Hx : in_box [1; 1; 0; 0] (glbSize st_grid)) by (rewrite GE; repeat constructor; lia).
    rewrite (C92_plaquette st_grid false (phases A) (fun _ _ => mid) eq_refl st_eo _ 0 1 Hx) by lia. apply mscale_proper'.
    + rewrite (UN eq_refl 0%nat 1%nat 1 ltac:(cbn; tauto)); [|cbn [strength ex_E Nat.eqb]; rewrite felt_1; ring|exact Hx].
      unfold flux. cbn [strength ex_E Nat.eqb]. rewrite felt_1, GE. cbn [nth]. replace (2 * PI * 1 * 1 / (4 * 4))%R with (PI / 8)%R by field. apply Cmult_comm.
    + unfold plaquette. rewrite !mmul_1_l. intros i j Hi Hj. unfold dag, mid. destruct (Nat.eqb_spec i j) as [->|Nij]; [rewrite Nat.eqb_refl; apply injective_projections; cbn; ring|]. destruct (Nat.eqb_spec j i); [congruence|]. apply injective_projections; cbn; ring.
Qed.
