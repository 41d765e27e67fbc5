(** Proofs about the background field of BackModel: what each loop does on a rank. *)
From Coq Require Import Reals Lra Lia.
From Coquelicot Require Import Coquelicot.
From Verif Require Import Base GeometryModel GeometrySpec GeoMiscModel HaloModel HaloProofs EoModel EoProofs EoProofs2 StapleModel StapleSpec StapleProofs Prop_Staple
  CplxModel CplxProofs MatModel MatSpec MatProofs MatProofs2 MatAlg GaugeModel GaugeSpec GaugeProofs StapleMain GfixProofs IldgProofs BackModel BackSpec BackProofs BackFieldSpec.
Set Bullet Behavior "Strict Subproofs".
Open Scope Z_scope.

Section E.
Context (g : grid) (Hv : valid_grid g = true) (Heo : eo_grid_ok g = true) (ord : Z -> nat -> nat -> nat -> Z -> Z -> list Z) (Ho : any_order ord).
Notation G := (glbSize g).

Notation eo_site := (eo_site g). Notation has_u1 := (has_u1 g).
Lemma eo_site_fun r p k x y : eo_site r p k x -> eo_site r p k y -> x = y.
Proof using. intros (i & A & B) (j & A' & B'). assert (i = j) by congruence. subst j. congruence. Qed.

Lemma par_loop_at {T} l r (body : Z -> Z -> @qfield T -> @qfield T) (h : Z -> Z -> nat -> option T -> option T) S :
  (forall par i s j nu, body par i s j nu = if j =? i then h par i nu (s j nu) else s j nu) ->
  forall p k nu, (p = 0 \/ p = 1) /\ 0 <= k < locVolh g /\ par_loop g ord l r body S p k nu = h p k nu (S p k nu) \/
    ~ ((p = 0 \/ p = 1) /\ 0 <= k < locVolh g) /\ par_loop g ord l r body S p k nu = S p k nu.
Proof using Ho.
  intros B p k nu. unfold par_loop. destruct ((p =? 0) || (p =? 1)) eqn:Ep.
  - assert (Hp : p = 0 \/ p = 1) by (apply orb_true_iff in Ep as [Ep|Ep]; apply Z.eqb_eq in Ep; auto). unfold PAR. destruct (Ho r l (Z.to_nat p) 0%nat 0 (locVolh g)) as [ND IN]. set (l0 := ord r l (Z.to_nat p) 0%nat 0 (locVolh g)) in *.
    destruct (once Some (h p) (body p) l0 ND) with (s := S p) as [O1 O2].
    + intros a b _ _ E _. congruence.
    + intros i s j m [= ->]. now rewrite B, Z.eqb_refl.
    + intros i s j m N. rewrite B. destruct (Z.eqb_spec j i) as [->|]; [congruence|reflexivity].
    + destruct (in_dec Z.eq_dec k l0) as [I|I].
      * left. split; [exact Hp|]. split; [now apply IN|]. now apply O1.
      * right. split; [intros [_ H]; apply I; now apply IN|]. apply O2. intros i Hi [= ->]. contradiction.
  - right. split; [|reflexivity]. intros [[-> | ->] _]; discriminate.
Qed.
Lemma par_loop_in {T} l r (body : Z -> Z -> @qfield T -> @qfield T) (h : Z -> Z -> nat -> option T -> option T) S :
  (forall par i s j nu, body par i s j nu = if j =? i then h par i nu (s j nu) else s j nu) ->
  forall p k nu, p = 0 \/ p = 1 -> 0 <= k < locVolh g -> par_loop g ord l r body S p k nu = h p k nu (S p k nu).
Proof using Ho. intros B p k nu Hp Hk. destruct (par_loop_at l r body h S B p k nu) as [(_ & _ & E)|(N & _)]; [exact E|]. exfalso. apply N. now split. Qed.
Lemma links_body {T} mus (body : nat -> option T -> option T) i s j nu : NoDup mus ->
  links_of mus body i s j nu = if j =? i then (if existsb (Nat.eqb nu) mus then body nu (s j nu) else s j nu) else s j nu.
Proof using. intros ND. rewrite links_of_at by exact ND. destruct (Z.eqb_spec j i) as [->|]; reflexivity. Qed.
Lemma one_nd (mu : nat) : NoDup [mu]. Proof using. repeat constructor. intros []. Qed.

Lemma to_id_ok r S : has_u1 r (fun _ _ => RtoC 1) (init_backfield_to_id g ord r S).
Proof using Ho.
  intros p k x mu Hp Hk _ Hmu. unfold init_backfield_to_id.
  rewrite (par_loop_in 31 r _ (fun _ _ nu v => if existsb (Nat.eqb nu) dirs then Some (1%R, 0%R) else v) S) by (assumption || (intros; rewrite links_body by exact dirs_nd; reflexivity)).
  apply Nat.ltb_lt in Hmu. now rewrite dirs_has, Hmu.
Qed.
Lemma im_pot_ok r im f S : has_u1 r f S -> has_u1 r (fun x mu => if Nat.eqb mu 0 then (f x mu * expi (im * PI / IZR G.[0]))%C else f x mu) (add_im_pot_to_backfield g ord r im S).
Proof using Ho.
  intros H p k x mu Hp Hk Hx Hmu. unfold add_im_pot_to_backfield.
  rewrite (par_loop_in 32 r _ (fun _ _ nu v => if existsb (Nat.eqb nu) [0%nat] then option_map (u1_times (cos (im * PI / IZR G.[0]), sin (im * PI / IZR G.[0]))%R) v else v) S) by (assumption || (intros; rewrite links_body by apply one_nd; reflexivity)).
  rewrite (H p k x mu Hp Hk Hx Hmu). cbn [existsb]. rewrite Bool.orb_false_r. destruct (Nat.eqb mu 0); [|reflexivity]. cbn [option_map]. now rewrite u1_times_ok.
Qed.
Lemma anti_ok r m f S : has_u1 r f S -> has_u1 r (fun x mu => if Nat.eqb mu m then (f x mu * expi (- PI / IZR G.[m]))%C else f x mu) (add_antiperiodic_condition_to_backfield g ord r m S).
Proof using Ho.
  intros H p k x mu Hp Hk Hx Hmu. unfold add_antiperiodic_condition_to_backfield. set (a := (-1 * PI / IZR G.[m])%R).
  rewrite (par_loop_in 34 r _ (fun _ _ nu v => if existsb (Nat.eqb nu) [m] then option_map (u1_prodassign (cos a, sin a)) v else v) S) by (assumption || (intros; rewrite links_body by apply one_nd; reflexivity)).
  rewrite (H p k x mu Hp Hk Hx Hmu). cbn [existsb]. rewrite Bool.orb_false_r. destruct (Nat.eqb mu m); [|reflexivity]. cbn [option_map]. rewrite u1_prodassign_ok. unfold expi, a.
  replace (- PI / IZR G.[m])%R with (-1 * PI / IZR G.[m])%R by (unfold Rdiv; ring). reflexivity.
Qed.
(** a body which multiplies the links of the site by something *)
Definition at_site {T} (h : Z -> Z -> list Z -> nat -> option T -> option T) r p k nu (v : option T) : option T :=
  match loclx_of_loceo (rank_eo g r) p k with Some i => match glbCoordOfLoclx (rank_labels g r) i with Some x => h p k x nu v | None => v end | None => v end.
Lemma at_site_in {T} (h : Z -> Z -> list Z -> nat -> option T -> option T) r p k x nu v : eo_site r p k x -> at_site h r p k nu v = h p k x nu v.
Proof using. intros (i & A & B). unfold at_site. now rewrite A, B. Qed.
Lemma four_nd : NoDup [0; 1; 2; 3]%nat. Proof using. exact dirs_nd. Qed.
Lemma em_ok r q str flag mu nu f S S' : has_u1 r f S -> add_em_component g ord r q str flag mu nu S = Some S' ->
  has_u1 r (fun x rho => (f x rho * expi (2 * str * q * PI / IZR G.[mu] / IZR G.[nu] * IZR (get_args_of_quantization g flag x mu nu rho)))%C) S'.
Proof using Ho.
  intros H. unfold add_em_component. destruct (_ && _)%bool; [discriminate|]. destruct (_ || _)%bool; [discriminate|]. intros E0. apply (f_equal (fun o => match o with Some v => v | None => S end)) in E0. cbv beta iota in E0. rewrite <- E0. clear E0. intros p k x rho Hp Hk Hx Hrho.
  set (ph := (2 * str * q * PI / IZR G.[mu] / IZR G.[nu])%R).
  rewrite (par_loop_in 33 r _ (at_site (fun _ _ x nu0 v => if existsb (Nat.eqb nu0) [0; 1; 2; 3]%nat then
     option_map (u1_times (cos (ph * IZR (get_args_of_quantization g flag x mu nu nu0)), sin (ph * IZR (get_args_of_quantization g flag x mu nu nu0)))%R) v else v) r) S); [|intros|exact Hp|exact Hk].
  - rewrite (at_site_in _ r p k x) by exact Hx. rewrite (H p k x rho Hp Hk Hx Hrho). change [0; 1; 2; 3]%nat with dirs. rewrite dirs_has. apply Nat.ltb_lt in Hrho. rewrite Hrho. cbn [option_map]. now rewrite u1_times_ok.
  - unfold at_site. destruct (loclx_of_loceo _ _ _) as [j1|]; [|now destruct (_ =? _)]. destruct (glbCoordOfLoclx _ _) as [y|]; [|now destruct (_ =? _)]. cbv zeta. rewrite links_body by exact four_nd. reflexivity.
Qed.
Lemma em_defined r q str flag mu nu S : 0 <= flag <= 2 -> (exists S', add_em_component g ord r q str flag mu nu S = Some S') <-> ~ (flag = 2 /\ G.[mu] mod 4 <> 0).
Proof using.
  clear Hv Heo Ho. intros Hf. unfold add_em_component. destruct (Z.eqb_spec flag 2) as [E2|E2]; cbn [andb].
  - assert (Q : (Z.rem G.[mu] 4 =? 0) = (G.[mu] mod 4 =? 0)).
    { apply Bool.eq_true_iff_eq. rewrite !Z.eqb_eq. rewrite Z.rem_divide, Z.mod_divide by lia. reflexivity. }
    rewrite Q. destruct (Z.eqb_spec (G.[mu] mod 4) 0) as [D|D]; cbn [negb].
    + split; [tauto|]. intros _. destruct ((flag <? 0) || (2 <? flag))%bool eqn:E; [|eauto]. apply orb_true_iff in E as [E|E]; lia.
    + split; [intros (? & ?); discriminate|]. intros N. exfalso. apply N. now split.
  - split; [intros _ [? _]; contradiction|]. intros _. destruct ((flag <? 0) || (2 <? flag))%bool eqn:E; [|eauto]. apply orb_true_iff in E as [E|E]; lia.
Qed.

(** ** the configurations *)
Definition factors (rem without : bool) (r : Z) (u1 : eofield C) (p k : Z) (x : list Z) (mu : nat) (v : option cmat) : option cmat :=
  if existsb (Nat.eqb mu) dirs then lift2 (fun u U => su3_times (factor rem without (getStagphases x).[mu] u) U) (u1 p k mu) v else v.
Lemma to_eo_in r rem without u1 conf p k x mu : p = 0 \/ p = 1 -> 0 <= k < locVolh g -> eo_site r p k x ->
  backfield_to_eo_conf g ord r rem without u1 conf p k mu = factors rem without r u1 p k x mu (conf p k mu).
Proof using Ho.
  intros Hp Hk Hx. unfold backfield_to_eo_conf. rewrite (par_loop_in 36 r _ (at_site (factors rem without r u1) r) conf); [|intros|exact Hp|exact Hk].
  - now rewrite (at_site_in _ r p k x).
  - unfold at_site. destruct (loclx_of_loceo _ _ _) as [j1|]; [|now destruct (_ =? _)]. destruct (glbCoordOfLoclx _ _) as [y|]; [|now destruct (_ =? _)]. cbv zeta. rewrite links_body by exact dirs_nd. reflexivity.
Qed.
Lemma stag_in r conf p k x mu : p = 0 \/ p = 1 -> 0 <= k < locVolh g -> eo_site r p k x -> (mu < 4)%nat ->
  add_or_rem_stagphases_to_conf g ord r conf p k mu = option_map (fun U => mat (su3_prodassign_double a_out (IZR (getStagphases x).[mu]) (args U U U)) a_out) (conf p k mu).
Proof using Ho.
  intros Hp Hk Hx Hmu. unfold add_or_rem_stagphases_to_conf.
  rewrite (par_loop_in 35 r _ (at_site (fun p k x nu v => if existsb (Nat.eqb nu) dirs then option_map (fun U => mat (su3_prodassign_double a_out (IZR (getStagphases x).[nu]) (args U U U)) a_out) v else v) r) conf); [|intros|exact Hp|exact Hk].
  - rewrite (at_site_in _ r p k x) by exact Hx. apply Nat.ltb_lt in Hmu. now rewrite dirs_has, Hmu.
  - unfold at_site. destruct (loclx_of_loceo _ _ _) as [j1|]; [|now destruct (_ =? _)]. destruct (glbCoordOfLoclx _ _) as [y|]; [|now destruct (_ =? _)]. cbv zeta. rewrite links_body by exact dirs_nd. reflexivity.
Qed.
(** outside of the sites of the rank nothing changes *)
Lemma to_eo_out r rem without u1 conf p k mu : ~ ((p = 0 \/ p = 1) /\ 0 <= k < locVolh g) -> backfield_to_eo_conf g ord r rem without u1 conf p k mu = conf p k mu.
Proof using Ho.
  intros N. unfold backfield_to_eo_conf. destruct (par_loop_at 36 r (fun par ieo s =>
    match loclx_of_loceo (rank_eo g r) par ieo with
    | Some ilx => match glbCoordOfLoclx (rank_labels g r) ilx with
      | Some x => links_of dirs (fun mu => lift2 (fun u U => su3_times (factor rem without (getStagphases x).[mu] u) U) (u1 par ieo mu)) ieo s
      | None => s end
    | None => s end) (at_site (factors rem without r u1) r) conf) with (p := p) (k := k) (nu := mu) as [(A & B & _)|(_ & E)]; [intros| |exact E].
  - unfold at_site. destruct (loclx_of_loceo _ _ _) as [j1|]; [|now destruct (_ =? _)]. destruct (glbCoordOfLoclx _ _) as [y|]; [|now destruct (_ =? _)]. cbv zeta. rewrite links_body by exact dirs_nd. reflexivity.
  - exfalso. apply N. now split.
Qed.
(** the sites of a rank and their even-odd indices *)
Lemma eo_of r i : 0 <= r < nranks g -> 0 <= i < locVol g -> exists p x, (p = 0 \/ p = 1) /\ loclx_of_loceo (rank_eo g r) p (i / 2) = Some i /\ 0 <= i / 2 < locVolh g /\
  glbCoordOfLoclx (rank_labels g r) i = Some x /\ in_box x G /\ (forall q k, loclx_of_loceo (rank_eo g r) q k = Some i -> q = p /\ k = i / 2).
Proof using Hv Heo.
  intros Hr Hi. pose proof (vols_nonneg g Hv) as (V0 & V1 & V2). destruct (eo_tables_spec g Hv Heo (coordOfRank g r) (rc_in g Hv r Hr)) as [_ T]. cbv zeta in T. fold (rank_labels g r) in T. fold (rank_eo g r) in T.
  destruct (site_coords g r i Hv Hr Hi) as (x & Hx & Bx & _). exists (site_par g (coordOfRank g r) i), x.
  assert (It : 0 <= i < totVol g) by (unfold totVol; clear -Hi V1 V2; lia). assert (Hp : site_par g (coordOfRank g r) i = 0 \/ site_par g (coordOfRank g r) i = 1) by (apply (site_par_01 g Hv Heo); [now apply rc_in|exact It]).
  split; [exact Hp|]. split; [now apply T|]. split.
  { pose proof (locVolh_dbl g Hv Heo) as HS. clear -HS Hi. split; [apply Z.div_pos; lia|]. apply Z.div_lt_upper_bound; lia. }
  split; [exact Hx|]. split; [exact Bx|]. intros q k E. apply T in E as (_ & Eq & Ek). split; [now symmetry|exact Ek].
Qed.

Lemma to_lx_in r rem without u1 conf i x mu : 0 <= r < nranks g -> 0 <= i < locVol g -> glbCoordOfLoclx (rank_labels g r) i = Some x ->
  exists p k, (p = 0 \/ p = 1) /\ 0 <= k < locVolh g /\ loclx_of_loceo (rank_eo g r) p k = Some i /\
  backfield_to_lx_conf g ord r rem without u1 conf i mu = factors rem without r u1 p k x mu (conf i mu).
Proof using Hv Heo Ho.
  intros Hr Hi Hx. destruct (eo_of r i Hr Hi) as (p & x' & Hp & Ei & Hk & Hx' & _ & Un). assert (x' = x) by congruence. subst x'. exists p, (i / 2). split; [exact Hp|]. split; [exact Hk|]. split; [exact Ei|].
  unfold backfield_to_lx_conf. set (bd := fun par ieo (s : @qfield cmat) => match loclx_of_loceo (rank_eo g r) par ieo with
    | Some ilx => match glbCoordOfLoclx (rank_labels g r) ilx with
      | Some x => links_of dirs (fun mu => lift2 (fun u U => su3_times (factor rem without (getStagphases x).[mu] u) U) (u1 par ieo mu)) ilx s
      | None => s end
    | None => s end).
  assert (K : forall par s, let F := PAR ord r 37 (Z.to_nat par) 0 0 (locVolh g) (bd par) s in (par = p -> F i mu = factors rem without r u1 p (i / 2) x mu (s i mu)) /\ (par <> p -> F i mu = s i mu)).
  { intros par s F. unfold F, PAR. destruct (Ho r 37%nat (Z.to_nat par) 0%nat 0 (locVolh g)) as [ND IN]. set (l0 := ord r 37%nat (Z.to_nat par) 0%nat 0 (locVolh g)) in *.
    destruct (once (fun k => match loclx_of_loceo (rank_eo g r) par k with Some ilx => match glbCoordOfLoclx (rank_labels g r) ilx with Some _ => Some ilx | None => None end | None => None end)
      (fun k nu v => match loclx_of_loceo (rank_eo g r) par k with Some ilx => match glbCoordOfLoclx (rank_labels g r) ilx with Some y => factors rem without r u1 par k y nu v | None => v end | None => v end) (bd par) l0 ND) with (s := s) as [O1 O2].
    - intros a b Ha Hb. destruct (loclx_of_loceo (rank_eo g r) par a) as [ia|] eqn:Ea; [|congruence]. destruct (glbCoordOfLoclx (rank_labels g r) ia); [|congruence].
      destruct (loclx_of_loceo (rank_eo g r) par b) as [ib|] eqn:Eb; [|congruence]. destruct (glbCoordOfLoclx (rank_labels g r) ib); [|congruence]. intros [= ->] _.
      destruct (eo_tables_spec g Hv Heo (coordOfRank g r) (rc_in g Hv r Hr)) as [_ T]. cbv zeta in T. fold (rank_labels g r) in T. fold (rank_eo g r) in T. apply T in Ea as (_ & _ & ->). apply T in Eb as (_ & _ & ->). reflexivity.
    - intros k s0 j nu E. unfold bd. destruct (loclx_of_loceo (rank_eo g r) par k) as [ik|]; [|discriminate]. destruct (glbCoordOfLoclx (rank_labels g r) ik) as [y|]; [|discriminate]. injection E as ->.
      rewrite links_body by exact dirs_nd. now rewrite Z.eqb_refl.
    - intros k s0 j nu E. unfold bd. destruct (loclx_of_loceo (rank_eo g r) par k) as [ik|]; [|reflexivity]. destruct (glbCoordOfLoclx (rank_labels g r) ik) as [y|]; [|reflexivity].
      rewrite links_body by exact dirs_nd. destruct (Z.eqb_spec j ik) as [->|]; [congruence|reflexivity].
    - split.
      + intros ->. rewrite (O1 (i / 2) i mu); [|now apply IN|now rewrite Ei, Hx]. now rewrite Ei, Hx.
      + intros N. apply O2. intros k _. destruct (loclx_of_loceo (rank_eo g r) par k) as [ik|] eqn:Ek; [|discriminate]. destruct (glbCoordOfLoclx (rank_labels g r) ik); [|discriminate]. intros [= ->]. now destruct (Un par k Ek). }
  cbn [fold_left]. destruct Hp as [-> | ->].
  - rewrite (proj2 (K 1 _)) by discriminate. now apply K.
  - rewrite (proj1 (K 1 _) eq_refl). f_equal. now apply K.
Qed.
End E.
