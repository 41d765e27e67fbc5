From Coq Require Import Reals Lra Lia List FunctionalExtensionality.
From Coquelicot Require Import Complex.
From Verif Require Import CplxModel CplxSpec CplxProofs CplxStores MatModel MatSpec MatProofs MatRun MatProofs2 EvolveModel ParLoop StagModel StagSpec.
Import ListNotations.
Open Scope C_scope.
Set Bullet Behavior "Strict Subproofs".

(** ** Objects which are apart *)
Ltac ap_with H := let E := fresh in intros E; unfold at_ in E;
  first [ eapply (H [] []); exact E | eapply (H [] [_]); exact E | eapply (H [] [_;_]); exact E | eapply (H [] [_;_;_]); exact E | eapply (H [] [_;_;_;_]); exact E | eapply (H [] [_;_;_;_;_]); exact E
  | eapply (H [_] []); exact E | eapply (H [_] [_]); exact E | eapply (H [_] [_;_]); exact E | eapply (H [_] [_;_;_]); exact E | eapply (H [_] [_;_;_;_]); exact E | eapply (H [_] [_;_;_;_;_]); exact E
  | eapply (H [_;_] []); exact E | eapply (H [_;_] [_]); exact E | eapply (H [_;_] [_;_]); exact E | eapply (H [_;_] [_;_;_]); exact E | eapply (H [_;_] [_;_;_;_]); exact E | eapply (H [_;_] [_;_;_;_;_]); exact E
  | eapply (H [_;_;_] []); exact E | eapply (H [_;_;_] [_]); exact E | eapply (H [_;_;_] [_;_]); exact E | eapply (H [_;_;_] [_;_;_]); exact E | eapply (H [_;_;_] [_;_;_;_]); exact E | eapply (H [_;_;_] [_;_;_;_;_]); exact E
  | eapply (H [_;_;_;_] [_]); exact E | eapply (H [_;_;_;_] [_;_]); exact E | eapply (H [_;_;_;_] [_;_;_]); exact E | eapply (H [_;_;_;_;_] [_]); exact E | eapply (H [_;_;_;_;_] [_;_]); exact E | eapply (H [_;_;_;_;_] [_;_;_]); exact E ].
(** the same with the hypothesis used in either way *)
Lemma apart_sym a b : apart a b -> apart b a. Proof. intros H l l' E. exact (H l' l (eq_sym E)). Qed.
Lemma apart_at_l a b i : apart a b -> apart a@[i] b.
Proof. intros H l l' E. apply (H (l ++ [i]) l'). rewrite <- app_assoc. exact E. Qed.
Lemma apart_at_r a b i : apart a b -> apart a b@[i]. Proof. intros H. apply apart_sym, apart_at_l, apart_sym, H. Qed.
Ltac root p := lazymatch p with at_ ?a _ => root a | _ => p end.
Ltac ap := lazymatch goal with
  | |- ?x <> ?y => let a := root x in let b := root y in
    match goal with H : apart a b |- _ => solve [ap_with H] | H : apart b a |- _ => solve [ap_with (apart_sym _ _ H)] end
  | |- ?x = ?y -> False => change (x <> y); let a := root x in let b := root y in
    match goal with H : apart a b |- _ => solve [ap_with H] | H : apart b a |- _ => solve [ap_with (apart_sym _ _ H)] end end.
Lemma apart_vec a b q : apart a b -> in_vec a q -> ~ in_vec b q.
Proof. intros H (i & _ & ->) (j & _ & E). revert E. ap. Qed.
Lemma apart_vec_mat a b q : apart a b -> in_vec a q -> ~ in_mat b q.
Proof. intros H (i & _ & ->) (j & k & _ & _ & E). revert E. ap. Qed.

(** ** The operations on colours *)
Section Colors.
Context (a b c : path) (H0 : a <> c) (H1 : forall i, a <> b@[i]).
Lemma su3_summ_the_prod_color_ok : sets_vec (su3_summ_the_prod_color a b c) a (fun m i => vec m a i + mvec (mat m b) (vec m c) i).
Proof. unfold su3_summ_the_prod_color. go1. Qed.
Lemma su3_subt_the_prod_color_ok : sets_vec (su3_subt_the_prod_color a b c) a (fun m i => vec m a i - mvec (mat m b) (vec m c) i).
Proof. unfold su3_subt_the_prod_color. go1. Qed.
Lemma su3_dag_summ_the_prod_color_ok : sets_vec (su3_dag_summ_the_prod_color a b c) a (fun m i => vec m a i + mvec (dag (mat m b)) (vec m c) i).
Proof. unfold su3_dag_summ_the_prod_color. go1. Qed.
Lemma su3_dag_subt_the_prod_color_ok : sets_vec (su3_dag_subt_the_prod_color a b c) a (fun m i => vec m a i - mvec (dag (mat m b)) (vec m c) i).
Proof. unfold su3_dag_subt_the_prod_color. go1. Qed.
End Colors.

(** ** Loops on the sites *)
Lemma fld_par loc n body out (v : nat -> mem -> cvec) sched : order n sched ->
  (forall k, (k < n)%nat -> sets_vec_loc loc (body k) out@[k] (v k)) ->
  (forall k q, (k < n)%nat -> in_vec out@[k] q -> ~ loc q) ->
  (forall k m m', (k < n)%nat -> (forall r, (forall k', (k' < n)%nat -> k' <> k -> ~ in_vec out@[k'] r) -> ~ loc r -> m r = m' r) -> veq (v k m) (v k m')) ->
  sets_fld_loc loc n (PAR sched body) out (fun m x => v x m).
Proof.
  intros [ND Hin] Hb Hl He m.
  destruct (par_loop body (fun k q => in_vec out@[k] q) loc (fun k m q => match q with i :: _ => v k m i | [] => RtoC 0 end) sched) with (m := m) as [P1 P2].
  - exact ND.
  - intros k Hk m0 q (i & Hi & ->). apply Hin in Hk. destruct (Hb k Hk m0) as [B1 _]. exact (B1 i Hi).
  - intros k Hk m0 q Hq Lq. apply Hin in Hk. destruct (Hb k Hk m0) as [_ B2]. apply B2; assumption.
  - intros k k' q Hk Hk' N (i & Hi & ->) (j & Hj & E). unfold at_ in E. congruence.
  - intros k q Hk Hq. apply (Hl k); [apply Hin; exact Hk|exact Hq].
  - intros k m0 m' q Hk (i & Hi & ->) Hr. cbn. apply (He k m0 m'); [apply Hin; exact Hk| |exact Hi].
    intros r Hr1 Lr. apply Hr; [|exact Lr]. intros k' Hk' N. apply Hr1; [apply Hin; exact Hk'|exact N].
  - split.
    + intros x Hx i Hi. apply (P1 x out@[x]@[i]); [apply Hin; exact Hx|]. exists i. auto.
    + intros q Hq Lq. apply P2; [|exact Lq]. intros k Hk. apply Hq, Hin, Hk.
Qed.
(** one more term in an accumulator *)
Lemma acc_step loc f g a v (X : mem -> cvec) (s : C) : sets_vec_loc loc f a v -> sets_vec_loc loc g a (fun m i => vec m a i + s * X m i) ->
  (forall m m', (forall q, ~ in_vec a q -> ~ loc q -> m q = m' q) -> veq (X m) (X m')) ->
  sets_vec_loc loc (f;; g) a (fun m i => v m i + s * X m i).
Proof.
  intros Hf Hg HX m. rewrite then_run. destruct (Hf m) as [F1 F2]. destruct (Hg (f m)) as [G1 G2]. split.
  - intros i Hi. rewrite (G1 i Hi). rewrite (F1 i Hi). f_equal. f_equal. apply HX; [|exact Hi]. intros q Q L. apply F2; assumption.
  - intros q Q L. rewrite G2, F2 by assumption. reflexivity.
Qed.
Lemma weaken loc f a v v' : sets_vec f a v -> (forall m, veq (v m) (v' m)) -> sets_vec_loc loc f a v'.
Proof. intros H E m. destruct (H m) as [H1 H2]. split; [intros i Hi; rewrite (H1 i Hi); apply E, Hi|]. intros q Q L. apply H2; auto. Qed.

Lemma mvec_ext x y u w i : meq x y -> veq u w -> (i < 3)%nat -> mvec x u i = mvec y w i.
Proof. intros H K Hi. unfold mvec. cbn [csum]. rewrite !H, !K by lia. reflexivity. Qed.
Lemma dag_ext x y : meq x y -> meq (dag x) (dag y).
Proof. intros H i j Hi Hj. unfold dag. rewrite H by assumption. reflexivity. Qed.
Lemma summ_subt_ok A U1 V1 U2 V2 : A <> V1 -> A <> V2 -> (forall i, A <> U1@[i]) -> (forall i, A <> U2@[i]) ->
  sets_vec (su3_summ_the_prod_color A U1 V1;; su3_dag_subt_the_prod_color A U2 V2) A
    (fun m i => vec m A i + 1%R * (mvec (mat m U1) (vec m V1) i - mvec (dag (mat m U2)) (vec m V2) i)).
Proof.
  intros N1 N2 M1 M2 m. rewrite then_run.
  destruct (su3_summ_the_prod_color_ok A U1 V1 N1 M1 m) as [S1 S2]. set (m1 := su3_summ_the_prod_color A U1 V1 m) in *.
  destruct (su3_dag_subt_the_prod_color_ok A U2 V2 N2 M2 m1) as [D1 D2]. split.
  - intros i Hi. rewrite (D1 i Hi), (S1 i Hi). rewrite (mvec_ext (dag (mat m1 U2)) (dag (mat m U2)) (vec m1 V2) (vec m V2) i); [ring| | |exact Hi].
    + apply dag_ext. intros a b _ _. apply S2; [|tauto]. intros (j & _ & E). unfold at_ in E. apply (M2 a). unfold at_. congruence.
    + intros a _. apply S2; [|tauto]. intros (j & _ & E). unfold at_ in E. congruence.
  - intros q Q L. rewrite D2, S2 by assumption. reflexivity.
Qed.
(** ** The terms of the hopping *)
Section Hopping.
Variables (nup ndw : nat -> nat -> nat -> nat).
Definition term (U : links) (p : nat) (f : cfield) (x mu : nat) : cvec := fun i =>
  mvec (U p x mu) (f (nup p x mu)) i - mvec (dag (U (1 - p)%nat (ndw p x mu) mu)) (f (ndw p x mu)) i.
(** what the term reads *)
Definition reads (conf inp q : path) : Prop := (exists p x mu i j, q = conf@[p]@[x]@[mu]@[i]@[j]) \/ (exists x i, q = inp@[x]@[i]).
Lemma term_ext conf inp p x mu m m' : (forall q, reads conf inp q -> m q = m' q) -> veq (term (lks m conf) p (fld m inp) x mu) (term (lks m' conf) p (fld m' inp) x mu).
Proof.
  intros H i Hi. unfold term. f_equal; apply mvec_ext; try exact Hi; try apply dag_ext.
  all: try (intros a b _ _; apply H; left; do 5 eexists; reflexivity). all: intros a _; apply H; right; do 2 eexists; reflexivity.
Qed.
Section Body.
Variables (out conf inp : path) (p : nat) (A1 : apart out conf) (A2 : apart out inp).
Notation body_of x := (unsafe_su3_prod_color out@[x] conf@[p]@[x]@[0%nat] inp@[nup p x 0%nat];;
    su3_dag_subt_the_prod_color out@[x] conf@[(1 - p)%nat]@[ndw p x 0%nat]@[0%nat] inp@[ndw p x 0%nat];;
    unroll_for 1 NDIM (fun mu =>
      su3_summ_the_prod_color out@[x] conf@[p]@[x]@[mu] inp@[nup p x mu];;
      su3_dag_subt_the_prod_color out@[x] conf@[(1 - p)%nat]@[ndw p x mu]@[mu] inp@[ndw p x mu])).
Lemma reads_out x q : reads conf inp q -> ~ in_vec out@[x] q.
Proof. intros [(? & ? & ? & ? & ? & ->)|(? & ? & ->)] (i & _ & E); revert E; ap. Qed.
Lemma hop_body x : sets_vec (body_of x) out@[x] (fun m => hop nup ndw (lks m conf) p (fld m inp) x).
Proof.
  change (unroll_for 1 NDIM ?f) with (f 1%nat;; f 2%nat;; f 3%nat). cbv beta.
  assert (S0 : sets_vec (unsafe_su3_prod_color out@[x] conf@[p]@[x]@[0%nat] inp@[nup p x 0%nat];;
    su3_dag_subt_the_prod_color out@[x] conf@[(1 - p)%nat]@[ndw p x 0%nat]@[0%nat] inp@[ndw p x 0%nat]) out@[x] (fun m => term (lks m conf) p (fld m inp) x 0)).
  { intros m. rewrite then_run.
    destruct (unsafe_su3_prod_color_ok out@[x] conf@[p]@[x]@[0%nat] inp@[nup p x 0%nat] 0%R 0%R ltac:(ap) ltac:(intros; ap) m) as [U1 U2].
    set (m1 := unsafe_su3_prod_color _ _ _ m) in *.
    destruct (su3_dag_subt_the_prod_color_ok out@[x] conf@[(1 - p)%nat]@[ndw p x 0%nat]@[0%nat] inp@[ndw p x 0%nat] ltac:(ap) ltac:(intros; ap) m1) as [D1 D2]. split.
    - intros i Hi. rewrite (D1 i Hi), (U1 i Hi). unfold term. f_equal. apply mvec_ext; [| |exact Hi].
      + apply dag_ext. intros a b _ _. apply U2; [|tauto]. apply reads_out. left. do 5 eexists; reflexivity.
      + intros a _. apply U2; [|tauto]. apply reads_out. right. do 2 eexists; reflexivity.
    - intros q Q L. rewrite D2, U2 by assumption. reflexivity. }
  assert (ST : forall mu f v, sets_vec f out@[x] v -> sets_vec (f;; (su3_summ_the_prod_color out@[x] conf@[p]@[x]@[mu] inp@[nup p x mu];;
      su3_dag_subt_the_prod_color out@[x] conf@[(1 - p)%nat]@[ndw p x mu]@[mu] inp@[ndw p x mu])) out@[x] (fun m i => v m i + 1%R * term (lks m conf) p (fld m inp) x mu i)).
  { intros mu f v Hf. apply acc_step; [exact Hf| |].
    - apply summ_subt_ok; intros; ap.
    - intros m m' H. apply term_ext. intros q Hq. apply H; [apply reads_out, Hq|tauto]. }
  pose proof (ST 3%nat _ _ (ST 2%nat _ _ (ST 1%nat _ _ S0))) as H. unfold sets_vec in H |- *. rewrite !then_assoc in H. rewrite !then_assoc.
  intros m. destruct (H m) as [H1 H2]. split; [|exact H2].
  intros i Hi. etransitivity; [exact (H1 i Hi)|]. unfold hop, term. cbn [csum]. ring.
Qed.
Lemma hop_ext x m m' : (forall q, reads conf inp q -> m q = m' q) -> veq (hop nup ndw (lks m conf) p (fld m inp) x) (hop nup ndw (lks m' conf) p (fld m' inp) x).
Proof.
  intros H i Hi. unfold hop. cbn [csum].
  pose proof (fun mu => term_ext conf inp p x mu m m' H i Hi) as E. unfold term in E. rewrite !E. reflexivity.
Qed.
End Body.
End Hopping.
