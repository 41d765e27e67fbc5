(** The multishift conjugate gradient: each returned solution solves its shifted system; it returns *)
From Coq Require Import Reals List ZArith Lra Lia Psatz Bool.
From Verif Require Import CgModel CgSpec CgAlg.
Import ListNotations.
Open Scope R_scope.

Lemma all_some_inv : forall A B (g : A -> option B) l l', all_some g l = Some l' -> Forall2 (fun x y => g x = Some y) l l'.
Proof.
  induction l; cbn [all_some]; intros l' H. { injection H as <-; constructor. }
  destruct (g a) eqn:E; [ | discriminate ]. destruct (all_some g l); [ | discriminate ]. injection H as <-. constructor; auto.
Qed.
Lemma all_some_ok : forall A B (g : A -> option B) (P : A -> Prop) (Q : B -> Prop) l, Forall P l -> (forall x, P x -> exists y, g x = Some y /\ Q y) ->
  exists l', all_some g l = Some l' /\ Forall Q l'.
Proof.
  intros A B g P Q l H Hg. induction H; cbn [all_some]; [ eauto | ]. destruct (Hg x H) as (y & -> & Hy). destruct IHForall as (l' & -> & Hl).
  eexists; split; [ reflexivity | constructor; assumption ].
Qed.
Lemma Forall2_r : forall A B (P : A -> B -> Prop) (Q : A -> Prop) (S : B -> Prop) l l', Forall2 P l l' -> Forall Q l -> (forall x y, P x y -> Q x -> S y) -> Forall S l'.
Proof. intros A B P Q S l l' H. induction H; intros HQ HS; [ constructor | ]. inversion HQ; subst. constructor; eauto. Qed.
Lemma Forall2_map2 : forall A B C (P : A -> B -> Prop) (g : A -> C) (h : B -> C) l l', Forall2 P l l' -> (forall x y, P x y -> g x = h y) -> map g l = map h l'.
Proof. intros A B C P g h l l' H Hg. induction H; cbn [map]; [ reflexivity | ]. rewrite (Hg x y), IHForall2 by assumption. reflexivity. Qed.

Section Cgm.
Variables (N : nat) (f : R -> rvec -> rvec) (niter : Z) (source : rvec).
Notation A := (f 0).
Hypothesis Alin : linear_op N A.
Hypothesis fsh : shifted N f.
Notation norm2 := (vnorm2 N).
Notation step := (cgm_iteration N f source).
Notation loop := (cgm_loop N f niter source).
Lemma A_lin2 : forall a b u v w, veq N w (fun i => a * u i + b * v i) -> veq N (A w) (fun i => a * A u i + b * A v i).
Proof. intros a b u v w H i Hi. rewrite (proj1 Alin _ _ H i Hi). apply (proj2 Alin); assumption. Qed.

(** a shift that runs, with the residual before the last *)
Definition run_inv (rprev r : rvec) (beta alpha : R) (h : sh) : Prop :=
  zas h <> 0 /\ zps h <> 0 /\
  veq N (fun i => A (h_ps h) i + shift h * h_ps h i)
        (fun i => zas h * (A r i + shift h * r i) + alpha * zas h / (zps h * beta) * (zas h * r i - zps h * rprev i)) /\
  veq N (fun i => source i - (A (h_sol h) i + shift h * h_sol h i)) (fun i => zas h * r i).
Definition sh_ok (rprev r : rvec) (beta alpha : R) (h : sh) : Prop :=
  if run_flag h then run_inv rprev r beta alpha h
  else norm2 (fun i => source i - (A (h_sol h) i + shift h * h_sol h i)) < residue_of h * norm2 source.
Definition inv (rprev : rvec) (st : cgm_state) : Prop :=
  betaa st <> 0 /\ m_rr st = norm2 (m_r st) /\
  veq N (A (m_p st)) (fun i => A (m_r st) i + m_alpha st / betaa st * (m_r st i - rprev i)) /\
  Forall (sh_ok rprev (m_r st) (betaa st) (m_alpha st)) (m_sh st).

(** between the two halves of the iteration *)
Definition mid_ok (s r r' : rvec) (beta' : R) (h : sh) : Prop :=
  if run_flag h then
    zas h <> 0 /\ zfs h <> 0 /\ betas h <> 0 /\ betas h * zas h = beta' * zfs h /\
    veq N (fun i => betas h * (A (h_ps h) i + shift h * h_ps h i)) (fun i => zfs h * r' i - zas h * r i) /\
    veq N (fun i => source i - (A (h_sol h) i + shift h * h_sol h i)) (fun i => zfs h * r' i)
  else norm2 (fun i => source i - (A (h_sol h) i + shift h * h_sol h i)) < residue_of h * norm2 source.

Lemma first_ok : forall rprev r p beta alpha beta' h h', beta <> 0 -> beta' <> 0 ->
  veq N (A p) (fun i => A r i + alpha / beta * (r i - rprev i)) ->
  sh_ok rprev r beta alpha h -> sh_first beta' beta alpha h = Some h' ->
  mid_ok (A p) r (fun i => r i + A p i * beta') beta' h'.
Proof.
  intros rprev r p beta alpha beta' h h' Hb Hb' Hp Hok. unfold sh_first, sh_ok, mid_ok in *.
  destruct (run_flag h) eqn:Hrf; [ | intros [= <-]; rewrite Hrf; exact Hok ].
  destruct Req_EM_T as [ | Hzp]; [ discriminate | ]. destruct Req_EM_T as [ | Hden]; [ discriminate | ].
  intros [= <-]. cbn [run_flag]. try rewrite Hrf. cbn [zas zfs betas h_ps h_sol shift].
  destruct Hok as (Hz & _ & H1 & H2). set (z := zas h) in *. set (zp := zps h) in *. set (sg := shift h) in *.
  set (den := beta' * alpha * (1 - z / zp) + beta * (1 - sg * beta')) in *.
  assert (Hr : beta / den <> 0) by (unfold Rdiv; apply Rmult_integral_contrapositive_currified; [ assumption | apply Rinv_neq_0_compat; assumption ]).
  assert (K : veq N (fun i => beta' * (beta / den) * (A (h_ps h) i + sg * h_ps h i)) (fun i => z * (beta / den) * (r i + A p i * beta') - z * r i)).
  { intros i Hi. specialize (H1 i Hi). cbn beta in H1. rewrite H1, (Hp i Hi).
    assert (den / beta = 1 - sg * beta' + beta' * alpha / beta * (1 - z / zp)) as E by (unfold den; field; split; assumption).
    assert (1 = (beta / den) * (1 - sg * beta' + beta' * alpha / beta * (1 - z / zp))) as E1 by (rewrite <- E; field; split; assumption).
    set (rho := beta / den) in *. apply Rminus_diag_uniq.
    transitivity (z * r i * (1 - rho * (1 - sg * beta' + beta' * alpha / beta * (1 - z / zp)))); [ field; split; assumption | rewrite <- E1; ring ]. }
  split; [ assumption | split; [ apply Rmult_integral_contrapositive_currified; assumption | split; [ apply Rmult_integral_contrapositive_currified; assumption | split; [ ring | split; [ exact K | ] ] ] ] ].
  intros i Hi.
  assert (veq N (fun j => h_sol h j - beta' * (beta / den) * h_ps h j) (fun j => 1 * h_sol h j + (- (beta' * (beta / den))) * h_ps h j)) as E by (intros j _; ring).
  rewrite (A_lin2 _ _ _ _ _ E i Hi). specialize (K i Hi). specialize (H2 i Hi). cbn beta in K, H2. lra.
Qed.
Lemma second_ok : forall r r' s beta' alpha' h h', beta' <> 0 -> mid_ok s r r' beta' h -> sh_second beta' alpha' r' h = Some h' ->
  sh_ok r r' beta' alpha' h' /\ zfs h' = (if run_flag h' then zas h' else zfs h').
Proof.
  intros r r' s beta' alpha' h h' Hb Hok. unfold sh_second, sh_ok, mid_ok, run_inv in *.
  destruct (run_flag h) eqn:Hrf; [ | intros [= <-]; rewrite Hrf; split; [ exact Hok | reflexivity ] ].
  destruct Req_EM_T as [ | Hz]; [ discriminate | ]. intros [= <-]. cbn [run_flag]. try rewrite Hrf. cbn [zas zps zfs h_ps h_sol shift]. split; [ | reflexivity ].
  destruct Hok as (H0 & H1 & H2 & H3 & H4 & H5). split; [ assumption | split; [ assumption | split; [ | assumption ] ] ].
  set (z := zas h) in *. set (zf := zfs h) in *. set (sg := shift h) in *. set (bs := betas h) in *.
  intros i Hi.
  assert (veq N (fun j => r' j * zf + h_ps h j * (alpha' * zf * bs / (z * beta'))) (fun j => zf * r' j + (alpha' * zf * bs / (z * beta')) * h_ps h j)) as E by (intros j _; ring).
  rewrite (A_lin2 _ _ _ _ _ E i Hi). specialize (H4 i Hi). cbn beta in H4.
  transitivity (zf * (A r' i + sg * r' i) + alpha' * zf / (z * beta') * (bs * (A (h_ps h) i + sg * h_ps h i))).
  - field; split; assumption.
  - rewrite H4. reflexivity.
Qed.
Lemma check_ok : forall r r' beta alpha h, 0 < norm2 source -> sh_ok r r' beta alpha h -> zfs h = (if run_flag h then zas h else zfs h) ->
  sh_ok r r' beta alpha (sh_check (norm2 r') (norm2 source) h).
Proof.
  intros r r' beta alpha h Hs H E. unfold sh_check. destruct (run_flag h) eqn:Hrf; [ | exact H ].
  unfold sh_ok in *. rewrite Hrf in *. cbn [run_flag]. destruct Rlt_dec as [L | L].
  - cbn [h_sol shift residue_of]. destruct H as (_ & _ & _ & H). unfold vnorm2 at 1. rewrite (rdot_ext N _ _ _ _ H H).
    rewrite <- E. apply (Rmult_lt_compat_r (norm2 source)) in L; [ | assumption ].
    assert (rdot N (fun i => zfs h * r' i) (fun i => zfs h * r' i) = norm2 r' * zfs h * zfs h) as EE.
    { unfold vnorm2, rdot. transitivity (zfs h * zfs h * rsum N (fun i => r' i * r' i)); [ | ring ]. rewrite <- rsum_scal. apply rsum_ext; intros; ring. }
    rewrite EE. replace (norm2 r' * zfs h * zfs h) with (norm2 r' * zfs h * zfs h / norm2 source * norm2 source) by (field; lra). assumption.
  - exact H.
Qed.
Definition same_sh (h h' : sh) : Prop := shift h' = shift h /\ residue_of h' = residue_of h.
Lemma step_inv : forall rprev st st', 0 < norm2 source -> inv rprev st -> step st = Some st' ->
  inv (m_r st) st' /\ m_iter st' = (m_iter st + 1)%Z /\ map (fun h => (shift h, residue_of h)) (m_sh st') = map (fun h => (shift h, residue_of h)) (m_sh st).
Proof.
  intros rprev st st' Hs (Hb & Hrr & Hp & Hsh). unfold cgm_iteration.
  destruct Req_EM_T as [ | Hpap]; [ discriminate | ]. set (b' := - m_rr st / rdot N (m_p st) (A (m_p st))).
  destruct (all_some _ (m_sh st)) as [hs | ] eqn:E1; [ | discriminate ].
  destruct Req_EM_T as [ | Hr0]; [ discriminate | ]. set (r' := fun i => m_r st i + A (m_p st) i * b'). set (al := norm2 r' / m_rr st).
  destruct (all_some _ hs) as [hs' | ] eqn:E2; [ | discriminate ]. intros [= <-].
  assert (b' <> 0) as Hb' by (unfold b', Rdiv; apply Rmult_integral_contrapositive_currified; [ lra | apply Rinv_neq_0_compat; assumption ]).
  apply all_some_inv in E1. apply all_some_inv in E2.
  assert (M1 : Forall (mid_ok (A (m_p st)) (m_r st) r' b') hs).
  { apply (Forall2_r _ _ _ _ _ _ _ E1 Hsh). intros h h' Hf Hok. exact (first_ok rprev _ _ _ _ _ _ _ Hb Hb' Hp Hok Hf). }
  assert (M2 : Forall (fun h => sh_ok (m_r st) r' b' al h /\ zfs h = (if run_flag h then zas h else zfs h)) hs').
  { apply (Forall2_r _ _ _ _ _ _ _ E2 M1). intros h h' Hf Hok. exact (second_ok _ _ _ _ _ _ _ Hb' Hok Hf). }
  split; [ | split; [ reflexivity | ] ].
  - unfold inv. cbn [betaa m_rr m_r m_p m_sh m_alpha]. split; [ assumption | split; [ reflexivity | split ] ].
    + assert (veq N (fun i => r' i + m_p st i * al) (fun i => 1 * r' i + al * m_p st i)) as E by (intros j _; ring).
      intros i Hi. etransitivity; [ exact (A_lin2 _ _ _ _ _ E i Hi) | ]. unfold r' at 3. field. assumption.
    + rewrite Forall_map. eapply Forall_impl; [ | exact M2 ]. intros h [H1 H2]. apply check_ok; assumption.
  - cbn [m_sh]. rewrite map_map. symmetry.
    etransitivity; [ refine (Forall2_map2 _ _ _ _ _ (fun h => (shift h, residue_of h)) _ _ E1 _) | refine (Forall2_map2 _ _ _ _ _ _ _ _ E2 _) ].
    + intros x y. unfold sh_first. destruct (run_flag x); [ repeat (destruct Req_EM_T; [ discriminate | ]) | ]; intros [= <-]; reflexivity.
    + intros x y. unfold sh_second, sh_check. destruct (run_flag x) eqn:Hx; [ repeat (destruct Req_EM_T; [ discriminate | ]) | ]; intros [= <-]; cbn [run_flag]; try rewrite Hx; reflexivity.
Qed.
Lemma loop_sound : forall fuel rprev st st', 0 < norm2 source -> inv rprev st -> (m_iter st < niter)%Z -> loop fuel st = Some st' ->
  (exists rprev', inv rprev' st') /\ (m_iter st' <= niter)%Z /\ (running st' = false \/ m_iter st' = niter) /\
  map (fun h => (shift h, residue_of h)) (m_sh st') = map (fun h => (shift h, residue_of h)) (m_sh st).
Proof.
  induction fuel; intros rprev st st' Hs H Hi; cbn [cgm_loop]; destruct (step st) as [s | ] eqn:E; try discriminate;
    destruct (step_inv _ _ _ Hs H E) as (H1 & H2 & H3); destruct (running s) eqn:Er; cbn [andb]; try (intros [= <-]; repeat split; eauto; lia);
    destruct (Z.ltb_spec (m_iter s) niter); try discriminate; try (intros [= <-]; repeat split; eauto; [ lia | right; lia ]).
  intros L. destruct (IHfuel _ _ _ Hs H1 H0 L) as (I1 & I2 & I3 & I4). repeat split; [ assumption | assumption | assumption | ]. rewrite I4; assumption.
Qed.
Theorem cgm_sound : forall shifts sols, (1 <= niter)%Z -> cgm_invert N f niter source shifts = Some sols ->
  Forall2 (fun sr sol => residual2 N (f (fst sr)) source sol < snd sr * norm2 source) shifts sols.
Proof.
  intros shifts sols Hn. unfold cgm_invert. destruct Req_EM_T as [ | Hs]; [ discriminate | ].
  assert (0 < norm2 source) as Hs' by (pose proof (rdot_pos N source); unfold vnorm2 in *; lra).
  match goal with |- context [cgm_loop _ _ _ _ ?fu ?s] => set (fuel := fu); set (st := s) end.
  destruct (loop fuel st) as [st' | ] eqn:E; [ | discriminate ]. destruct (Z.eqb_spec (m_iter st') niter); [ discriminate | ]. intros [= <-].
  assert (inv (fun _ => 0) st) as I.
  { unfold inv, st. cbn [betaa m_rr m_r m_p m_sh m_alpha]. split; [ lra | split; [ reflexivity | split ] ].
    - intros i _. field.
    - rewrite Forall_map. apply Forall_forall. intros [s r] _. unfold sh_ok, sh_init, run_inv. cbn [run_flag zas zps h_ps h_sol shift].
      split; [ lra | split; [ lra | split ] ].
      + intros i _. field.
      + intros i Hi. assert (A (fun _ => 0) i = 0) as Z0.
        { rewrite (A_lin2 0 0 (fun _ => 0) (fun _ => 0) (fun _ => 0)); [ ring | intros j _; ring | assumption ]. }
        rewrite Z0. ring. }
  apply (loop_sound _ _ _ _ Hs' I) in E; [ | cbn; lia ]. destruct E as ((rp & _ & _ & _ & F) & _ & [Hr | Hr] & Em); [ | congruence ].
  assert (shifts = map (fun h => (shift h, residue_of h)) (m_sh st')) as ->.
  { rewrite Em. unfold st. cbn [m_sh]. rewrite map_map. cbn [sh_init shift residue_of]. rewrite <- (map_id shifts) at 1. apply map_ext. intros [a b]; reflexivity. }
  clear - F Hr fsh. unfold running in Hr. induction (m_sh st') as [ | h l IH]; cbn [map]; [ constructor | ]. inversion F; subst. cbn [existsb] in Hr. apply orb_false_iff in Hr. destruct Hr as [Hh Hl].
  constructor; [ | apply IH; assumption ]. cbn [fst snd]. unfold sh_ok in H1. rewrite Hh in H1.
  unfold residual2, vnorm2 at 1. rewrite (rdot_ext N _ (fun i => source i - (A (h_sol h) i + shift h * h_sol h i)) _ (fun i => source i - (A (h_sol h) i + shift h * h_sol h i))); [ exact H1 | | ];
    intros i Hi; rewrite (fsh _ _ i Hi); reflexivity.
Qed.
End Cgm.
