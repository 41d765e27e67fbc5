From Coq Require Import Reals Lra Lia List FunctionalExtensionality.
From Coquelicot Require Import Complex.
From Verif Require Import CplxModel CplxSpec CplxProofs CplxStores MatModel MatSpec MatProofs MatRun MatProofs2 EvolveModel ParLoop StagModel StagSpec StagProofs.
Import ListNotations.
Open Scope C_scope.
Set Bullet Behavior "Strict Subproofs".

Lemma im_set_re a v m : im (set_re a v m) = im m.
Proof. apply functional_extensionality. intros q. unfold im, set_re, upd. destruct (path_dec q a) as [->|N]; reflexivity. Qed.
Lemma two_stores a v w m : set_im a w (set_re a v m) = upd m a (v, w).
Proof. unfold set_im, set_re. rewrite upd_upd. unfold re. rewrite upd_same. reflexivity. Qed.
Lemma lin_C (a b : R) (x y : C) : ((a * fst x + b * fst y)%R, (a * snd x + b * snd y)%R) = a * x + b * y.
Proof. apply injective_projections; cbn; ring. Qed.

(** ** The loops on the degrees of freedom *)
Lemma deg_loop n sched out P a b (f : (path -> R) -> nat -> nat -> R) : order n sched -> apart out P ->
  (forall g site ic, f g site ic = (a * g P@[site]@[ic] + b * g out@[site]@[ic])%R) ->
  sets_fld n (FOR_EACH_SITE_DEG sched out f) out (fun m => fcomb a (fld m P) b (fld m out)).
Proof.
  intros Ho HA Hf. unfold FOR_EACH_SITE_DEG. apply (fld_par _ n _ out (fun x m => fcomb a (fld m P) b (fld m out) x)); [exact Ho| | |].
  - intros k Hk. apply vec_loop.
    + intros i Hi. apply sets_of. intros m. rewrite im_set_re, two_stores. f_equal. rewrite !Hf. apply lin_C.
    + intros i i' m x Hi Hi' N. unfold fcomb, fld, vec. rewrite !upd_other; [reflexivity| |ap]. unfold at_. congruence.
  - tauto.
  - intros k m m' Hk H i Hi. unfold fcomb, fld, vec. f_equal; f_equal; apply H; try tauto.
    + intros k' _ _ (j & _ & E). revert E. ap.
    + intros k' _ N (j & _ & E). unfold at_ in E. congruence.
Qed.

Section Ops.
Variables (sched : nat -> list nat) (nup ndw : nat -> nat -> nat -> nat) (n : nat) (Hs : forall l, order n (sched l)).
Lemma st2Doe_ok l out conf inp : apart out conf -> apart out inp ->
  sets_fld n (apply_st2Doe sched nup ndw l out conf inp) out (fun m => hop nup ndw (lks m conf) 1 (fld m inp)).
Proof.
  intros A1 A2. unfold apply_st2Doe. apply (fld_par _ n _ out (fun x m => hop nup ndw (lks m conf) 1 (fld m inp) x)); [apply Hs| | |].
  - intros k Hk. exact (hop_body nup ndw out conf inp 1 A1 A2 k).
  - tauto.
  - intros k m m' Hk H. apply hop_ext. intros q Hq. apply H; [|tauto]. intros k' _ _. apply (reads_out out conf inp A1 A2 k' q Hq).
Qed.
(** a field computed and then combined with itself *)
Lemma then_deg l out P a b f o v : sets_fld n o out v -> apart out P ->
  (forall g site ic, f g site ic = (a * g P@[site]@[ic] + b * g out@[site]@[ic])%R) ->
  sets_fld n (o;; FOR_EACH_SITE_DEG (sched l) out f) out (fun m => fcomb a (fld m P) b (v m)).
Proof.
  intros Ho A Hf m. rewrite then_run. destruct (Ho m) as [O1 O2]. destruct (deg_loop n (sched l) out P a b f (Hs l) A Hf (o m)) as [D1 D2]. split.
  - intros x Hx i Hi. rewrite (D1 x Hx i Hi). unfold fcomb. f_equal; f_equal.
    + apply O2; [|tauto]. intros y _ (j & _ & E). revert E. ap.
    + exact (O1 x Hx i Hi).
  - intros q Q L. rewrite D2, O2 by assumption. reflexivity.
Qed.
Lemma stDoe_ok out conf inp : apart out conf -> apart out inp ->
  sets_fld n (apply_stDoe sched nup ndw out conf inp) out (fun m => fcomb 0 (fld m inp) (/ 2) (hop nup ndw (lks m conf) 1 (fld m inp))).
Proof.
  intros A1 A2 m. unfold apply_stDoe. rewrite then_run. destruct (st2Doe_ok 0 out conf inp A1 A2 m) as [O1 O2]. set (m1 := apply_st2Doe _ _ _ _ _ _ _ m) in *.
  destruct (fld_par (fun _ => False) n (fun io => color_prodassign_double out@[io] 0.5) out (fun x m i => vec m out@[x] i * RtoC 0.5) (sched 1%nat)) with (m := m1) as [P1 P2].
  - apply Hs.
  - intros k Hk. apply (color_prod_double_ok out@[k] out@[k] [] 0.5 0).
  - tauto.
  - intros k m' m'' Hk H i Hi. unfold vec. f_equal. apply H; [|tauto]. intros k' _ N (j & _ & E). unfold at_ in E. congruence.
  - split.
    + intros x Hx i Hi. etransitivity; [exact (P1 x Hx i Hi)|]. cbv beta.
      replace (vec m1 out@[x] i) with (hop nup ndw (lks m conf) 1 (fld m inp) x i) by (symmetry; exact (O1 x Hx i Hi)).
      unfold fcomb. replace 0.5%R with (/ 2)%R by lra. ring.
    + intros q Q L. rewrite P2, O2 by assumption. reflexivity.
Qed.
Lemma stDeo_half_ok l out conf inp : apart out conf -> apart out inp ->
  sets_fld n (apply_stDeo_half sched nup ndw l out conf inp) out (fun m => fcomb 0 (fld m inp) (/ 4) (hop nup ndw (lks m conf) 0 (fld m inp))).
Proof.
  intros A1 A2. unfold apply_stDeo_half.
  apply (fld_par _ n _ out (fun x m => fcomb 0 (fld m inp) (/ 4) (hop nup ndw (lks m conf) 0 (fld m inp)) x)); [apply Hs| | |].
  - intros k Hk m. pose proof (hop_body nup ndw out conf inp 0 A1 A2 k m) as [H1 H2].
    match goal with |- context [(?a;; ?b;; ?c;; ?d) ?m] => change ((a;; b;; c;; d) m) with (d ((a;; b;; c) m)) end. cbv zeta.
    change EVN with 0%nat. change ODD with (1 - 0)%nat. set (m1 := then_ _ _ m) in *.
    destruct (color_prod_double_ok out@[k] out@[k] [] 0.25 0 m1) as [P1 P2]. split.
    + intros i Hi. rewrite (P1 i Hi), (H1 i Hi). unfold fcomb. replace 0.25%R with (/ 4)%R by lra. ring.
    + intros q Q L. rewrite P2, H2 by assumption. reflexivity.
  - tauto.
  - intros k m m' Hk H i Hi. unfold fcomb. f_equal; f_equal.
    + apply H; [|tauto]. intros k' _ _ (j & _ & E). revert E. ap.
    + apply hop_ext; [|exact Hi]. intros q Hq. apply H; [|tauto]. intros k' _ _. apply (reads_out out conf inp A1 A2 k' q Hq).
Qed.

(** ** The whole operator *)
Lemma sets_fld_ext loc o out v v' : sets_fld_loc loc n o out v -> (forall m, feq n (v m) (v' m)) -> sets_fld_loc loc n o out v'.
Proof. intros H E m. destruct (H m) as [H1 H2]. split; [|exact H2]. intros x Hx i Hi. rewrite (H1 x Hx i Hi). apply E; assumption. Qed.
Lemma odd_ok out conf mass inp s : apart out conf -> apart out inp ->
  sets_fld n (odd_apply_stD_with_sign sched nup ndw out conf mass inp s) out (fun m => stD nup ndw (lks m conf) s mass 1 (fun p => fld m inp@[p])).
Proof.
  intros A1 A2. unfold odd_apply_stD_with_sign, stD.
  apply (then_deg 3 out inp@[ODD] mass (s / 2) _ _ (fun m => hop nup ndw (lks m conf) 1 (fld m inp@[EVN]))); [apply st2Doe_ok| |]; try assumption; try (apply apart_at_r; assumption).
  intros. lra.
Qed.
Lemma evn_ok out conf mass inp s : apart out conf -> apart out inp ->
  sets_fld n (evn_apply_stD_with_sign sched nup ndw out conf mass inp s) out (fun m => stD nup ndw (lks m conf) s mass 0 (fun p => fld m inp@[p])).
Proof.
  intros A1 A2. unfold evn_apply_stD_with_sign, stD. eapply sets_fld_ext.
  - apply (then_deg 1 out inp@[EVN] mass (2 * s) _ _ (fun m => fcomb 0 (fld m inp@[ODD]) (/ 4) (hop nup ndw (lks m conf) 0 (fld m inp@[ODD]))));
      [apply stDeo_half_ok| |]; try assumption; try (apply apart_at_r; assumption). intros. lra.
  - intros m x Hx i Hi. unfold fcomb. change (1 - 0)%nat with ODD. change EVN with 0%nat.
    replace (RtoC (2 * s)) with (RtoC (s / 2) * RtoC 4) by (rewrite <- RtoC_mult; f_equal; field).
    replace (RtoC (/ 4)) with (/ RtoC 4) by (rewrite RtoC_inv; [reflexivity|lra]).
    replace (RtoC 0) with (RtoC 4 - RtoC 4) by ring. field. intros E. apply RtoC_inj in E. lra.
Qed.
End Ops.
