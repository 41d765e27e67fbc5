(** Derivatives of matrices; the derivative of the Wilson action. *)
From Coq Require Import Reals Lra Permutation Morphisms FinFun.
From Coquelicot Require Import Coquelicot.
From Verif Require Import Base GeometryModel GeometrySpec GeometryProofs OwnerProofs StapleSpec CplxModel MatModel MatSpec MatProofs4 MatAlg ChecksumSpec ChecksumMain GaugeSpec GaugeProofs.
Set Bullet Behavior "Strict Subproofs".
Open Scope Z_scope.

(** ** derivatives *)
Definition cderive (f : R -> C) (t : R) (d : C) : Prop := is_derive (fun s => fst (f s)) t (fst d) /\ is_derive (fun s => snd (f s)) t (snd d).
Lemma der_plus (f h : R -> R) t (a b : R) : is_derive f t a -> is_derive h t b -> is_derive (fun s => f s + h s)%R t (a + b)%R.
Proof. intros; exact (is_derive_plus f h t a b H H0). Qed.
Lemma der_mult (f h : R -> R) t (a b : R) : is_derive f t a -> is_derive h t b -> is_derive (fun s => f s * h s)%R t (a * h t + f t * b)%R.
Proof. intros; exact (is_derive_mult f h t a b H H0 Rmult_comm). Qed.
Lemma der_eq (f : R -> R) t (a b : R) : is_derive f t a -> a = b -> is_derive f t b. Proof. now intros H <-. Qed.
Lemma der_scal (f : R -> R) t (a c : R) : is_derive f t a -> is_derive (fun s => c * f s)%R t (c * a)%R.
Proof. intros H. exact (is_derive_scal f t c a H). Qed.
Lemma der_const t (c : R) : is_derive (fun _ : R => c) t 0%R. Proof. exact (is_derive_const c t). Qed.
Lemma der_opp (f : R -> R) t (a : R) : is_derive f t a -> is_derive (fun s => - f s)%R t (- a)%R. Proof. intros H. exact (is_derive_opp f t a H). Qed.
Lemma der_ext (f h : R -> R) t (a : R) : (forall s, f s = h s) -> is_derive f t a -> is_derive h t a. Proof. intros; now apply is_derive_ext with f. Qed.

Lemma cder_plus f h t a b : cderive f t a -> cderive h t b -> cderive (fun s => f s + h s)%C t (a + b)%C.
Proof. intros [A1 A2] [B1 B2]. split; apply der_plus; assumption. Qed.
Lemma cder_mult f h t a b : cderive f t a -> cderive h t b -> cderive (fun s => f s * h s)%C t (a * h t + f t * b)%C.
Proof.
  intros [A1 A2] [B1 B2]. split; unfold Cmult, Cplus; cbn [fst snd].
  - eapply der_eq; [apply der_plus; [apply der_mult; [exact A1|exact B1]|apply der_opp, der_mult; [exact A2|exact B2]]|]. cbv beta. lra.
  - eapply der_eq; [apply der_plus; apply der_mult; eassumption|]. cbv beta. lra.
Qed.
Lemma cder_conj f t a : cderive f t a -> cderive (fun s => Cconj (f s)) t (Cconj a).
Proof. intros [A1 A2]. split; unfold Cconj; cbn [fst snd]; [exact A1|now apply der_opp]. Qed.
Lemma cder_eq f t a b : cderive f t a -> a = b -> cderive f t b. Proof. now intros H <-. Qed.
Lemma cder_0 t : cderive (fun _ => RtoC 0) t (RtoC 0). Proof. split; apply der_const. Qed.

Lemma mder_mul f h t a b : mat_derive f t a -> mat_derive h t b -> mat_derive (fun s => mmul (f s) (h s)) t (madd (mmul a (h t)) (mmul (f t) b)).
Proof.
  intros Ha Hb i j Hi Hj. change (cderive (fun s => mmul (f s) (h s) i j) t (madd (mmul a (h t)) (mmul (f t) b) i j)). unfold mmul. cbn [csum].
  eapply cder_eq.
  - apply cder_plus; [apply cder_plus; [apply cder_plus; [apply cder_0|]|]|]; apply cder_mult; [apply (Ha i 0%nat)|apply (Hb 0%nat j)|apply (Ha i 1%nat)|apply (Hb 1%nat j)|apply (Ha i 2%nat)|apply (Hb 2%nat j)]; lia.
  - unfold madd, mmul. cbn [csum]. ring.
Qed.
Lemma mder_dag f t a : mat_derive f t a -> mat_derive (fun s => dag (f s)) t (dag a).
Proof. intros H i j Hi Hj. apply (cder_conj (fun s => f s j i)). exact (H j i Hj Hi). Qed.
Lemma mder_re_tr f t a : mat_derive f t a -> is_derive (fun s => re_tr (f s)) t (re_tr a).
Proof.
  intros H. unfold re_tr, trace. cbn [csum]. refine (proj1 (_ : cderive (fun s => RtoC 0 + f s 0%nat 0%nat + f s 1%nat 1%nat + f s 2%nat 2%nat)%C t _)).
  repeat apply cder_plus; [apply cder_0|apply (H 0%nat 0%nat)|apply (H 1%nat 1%nat)|apply (H 2%nat 2%nat)]; lia.
Qed.
Lemma der_lsum {A} (f : A -> R -> R) (d : A -> R) t l : (forall x, In x l -> is_derive (f x) t (d x)) -> is_derive (fun s => lsum (fun x => f x s) l) t (lsum d l).
Proof.
  induction l as [|x l IH]; intros H.
  - apply der_ext with (fun _ => 0%R); [reflexivity|apply der_const].
  - apply der_ext with (fun s => f x s + lsum (fun y => f y s) l)%R; [reflexivity|]. rewrite lsum_cons. apply der_plus; [apply H; now left|apply IH; intros; apply H; now right].
Qed.

(** ** traces *)
Lemma re_tr_add a b : re_tr (madd a b) = (re_tr a + re_tr b)%R.
Proof. unfold re_tr, trace, madd. cbn [csum]. unfold Cplus, RtoC. cbn [fst snd]. lra. Qed.
Lemma re_tr_dag a : re_tr (dag a) = re_tr a. Proof. unfold re_tr. now rewrite trace_dag. Qed.
Lemma re_tr_comm a b : re_tr (mmul a b) = re_tr (mmul b a). Proof. unfold re_tr. now rewrite trace_mul_comm. Qed.
Global Instance re_tr_proper : Proper (meq ==> eq) re_tr. Proof. intros a b H. unfold re_tr. now rewrite H. Qed.
Lemma re_tr_scale (c : R) a : re_tr (mscale (RtoC c) a) = (c * re_tr a)%R.
Proof. unfold re_tr, trace, mscale. cbn [csum]. unfold Cplus, Cmult, RtoC. cbn [fst snd]. lra. Qed.

(** ** the periodic lattice *)
Lemma back_step G x mu : in_box x G -> (mu < length G)%nat -> back G (step G x mu) mu = x.
Proof. intros Hx Hm. unfold back, step. rewrite shift_shift; [|assumption|assumption]. now apply shift_0. Qed.
Lemma step_back G x mu : in_box x G -> (mu < length G)%nat -> step G (back G x mu) mu = x.
Proof. intros Hx Hm. unfold back, step. rewrite shift_shift; [|assumption|assumption]. now apply shift_0. Qed.
Lemma step_perm G mu : (mu < length G)%nat -> Permutation (map (fun x => step G x mu) (all_coords G)) (all_coords G).
Proof.
  intros Hm. apply NoDup_Permutation; [|apply NoDup_all_coords|].
  - pose proof (NoDup_all_coords G) as N. assert (K : forall x, In x (all_coords G) -> in_box x G) by (intros; now apply in_all_coords).
    induction N as [|x l Hx N IH]; cbn [map]; constructor; [|apply IH; intros; apply K; now right].
    intros H. apply in_map_iff in H as (y & E & Hy). apply Hx. replace x with y; [exact Hy|].
    rewrite <- (back_step G x mu), <- (back_step G y mu), E; auto; apply K; [now right|now left].
  - intros x. rewrite in_map_iff, in_all_coords. split.
    + intros (y & <- & Hy). apply in_all_coords in Hy. now apply shift_in_box.
    + intros Hx. exists (back G x mu). split; [now apply step_back|]. apply in_all_coords. now apply shift_in_box.
Qed.
Lemma lsum_step G mu (f : list Z -> R) : (mu < length G)%nat -> lsum (fun x => f (step G x mu)) (all_coords G) = lsum f (all_coords G).
Proof. intros Hm. rewrite <- (lsum_perm f _ _ (step_perm G mu Hm)), lsum_map. reflexivity. Qed.

Lemma step_comm G x mu nu : in_box x G -> (mu < length G)%nat -> (nu < length G)%nat -> step G (step G x nu) mu = step G (step G x mu) nu.
Proof.
  intros Hx Hm Hn. destruct (Nat.eq_dec mu nu) as [->|N]; [reflexivity|]. unfold step, periodic_shift. pose proof (in_box_length _ _ Hx) as L.
  rewrite !nth_upd_neq by congruence. apply upd_comm. congruence.
Qed.
Lemma length_all_coords L : Forall (fun n => 0 < n) L -> length (all_coords L) = Z.to_nat (prodZ L).
Proof.
  induction 1 as [|n L Hn H IH]; [reflexivity|]. cbn [all_coords]. rewrite prodZ_cons. pose proof (prodZ_pos L H).
  assert (K : forall l, length (flat_map (fun c => map (cons c) (all_coords L)) l) = (length l * length (all_coords L))%nat).
  { induction l as [|c l IHl]; [reflexivity|]. cbn [flat_map length]. rewrite app_length, map_length, IHl. lia. }
  rewrite K, seqZ_length, IH. nia.
Qed.
(** ** the derivative of the action *)
Section Action.
Context (G : list Z) (HG : length G = 4%nat).
Definition muldag (a b : cmat) := mmul a (dag b).
Definition dagmul (a b : cmat) := mmul (dag a) b.
Definition fw U := fw_of mmul muldag G U.
Definition bw U := bw_of mmul dagmul G U.
Context (Ut : R -> list Z -> nat -> cmat) (D : list Z -> nat -> cmat) (t : R).
Context (HD : forall x mu, in_box x G -> (mu < 4)%nat -> mat_derive (fun s => Ut s x mu) t (D x mu)).
(** what changing one link of one staple gives *)
Definition f_term x mu nu := re_tr (mmul (D x mu) (dag (fw (Ut t) x mu nu))).
Definition b_term x mu nu := re_tr (mmul (D x mu) (dag (bw (Ut t) x mu nu))).
Lemma plaq_der x mu nu : in_box x G -> (mu < 4)%nat -> (nu < 4)%nat ->
  is_derive (fun s => re_tr (plaquette G (Ut s) x mu nu)) t (f_term x mu nu + f_term x nu mu + (b_term (step G x mu) nu mu + b_term (step G x nu) mu nu))%R.
Proof.
  intros Hx Hmu Hnu.
  assert (Hxm : in_box (step G x mu) G) by (apply shift_in_box; [exact Hx|lia]). assert (Hxn : in_box (step G x nu) G) by (apply shift_in_box; [exact Hx|lia]).
  eapply der_eq.
  - unfold plaquette. apply mder_re_tr. apply mder_mul; [apply mder_mul; [now apply HD|now apply (HD (step G x mu) nu)]|]. apply mder_dag, mder_mul; [now apply HD|now apply (HD (step G x nu) mu)].
  - cbv beta. unfold f_term, b_term, fw, bw, fw_of, bw_of, muldag, dagmul. rewrite !back_step by (try assumption; lia).
    set (A := Ut t x mu). set (B := Ut t (step G x mu) nu). set (C := Ut t x nu). set (E := Ut t (step G x nu) mu).
    set (A' := D x mu). set (B' := D (step G x mu) nu). set (C' := D x nu). set (E' := D (step G x nu) mu).
    rewrite re_tr_add.
    assert (T1 : re_tr (mmul (madd (mmul A' B) (mmul A B')) (dag (mmul C E))) = (re_tr (mmul A' (dag (mmul (mmul C E) (dag B)))) + re_tr (mmul B' (dag (mmul (mmul (dag A) C) E))))%R).
    { assert (L : forall a b c, meq (mmul (madd a b) c) (madd (mmul a c) (mmul b c))) by (intros; mring).
      rewrite L, re_tr_add. f_equal; [now rewrite !dag_mul, dag_dag, !mmul_assoc|]. rewrite !dag_mul, dag_dag, re_tr_comm, re_tr_comm. rewrite (mmul_assoc A B'), re_tr_comm. now rewrite !mmul_assoc. }
    assert (T2 : re_tr (mmul (mmul A B) (dag (madd (mmul C' E) (mmul C E')))) = (re_tr (mmul C' (dag (mmul (mmul A B) (dag E)))) + re_tr (mmul E' (dag (mmul (mmul (dag C) A) B))))%R).
    { rewrite <- (re_tr_dag (mmul (mmul A B) _)), dag_mul, dag_dag.
      assert (L : forall a b c, meq (mmul (madd a b) c) (madd (mmul a c) (mmul b c))) by (intros; mring).
      rewrite L, re_tr_add. f_equal; [now rewrite !dag_mul, dag_dag, !mmul_assoc|]. rewrite !dag_mul, dag_dag. rewrite (mmul_assoc C E'), re_tr_comm. now rewrite !mmul_assoc. }
    rewrite T1, T2. lra.
Qed.
Definition term x mu nu := (f_term x mu nu + b_term x mu nu)%R.
Lemma action_der beta : is_derive (fun s => wilson_action G (Ut s) beta) t
  (- beta / 3 * link_sum G (fun x mu => lsum (term x mu) (other_dirs mu)))%R.
Proof.
  unfold wilson_action. eapply der_eq.
  - apply der_scal. apply der_lsum with (d := fun x => lsum (fun p => (- / 3 * (f_term x (fst p) (snd p) + f_term x (snd p) (fst p) + (b_term (step G x (fst p)) (snd p) (fst p) + b_term (step G x (snd p)) (fst p) (snd p))))%R) (time_planes ++ space_planes)).
    intros x Hx. apply in_all_coords in Hx. apply der_lsum. intros p Hp.
    assert (P : (fst p < 4 /\ snd p < 4)%nat) by (cbn in Hp; intuition (subst; cbn; lia)).
    eapply der_eq; [apply der_ext with (fun s => 1 + - / 3 * re_tr (plaquette G (Ut s) x (fst p) (snd p)))%R; [intros s; cbv beta; unfold Rdiv; ring|apply der_plus; [apply der_const|apply der_scal, plaq_der; tauto]]|]. lra.
  - assert (S : forall mu nu, (mu < 4)%nat -> lsum (fun x => b_term (step G x mu) nu mu) (all_coords G) = lsum (fun x => b_term x nu mu) (all_coords G)) by (intros mu nu H; apply (lsum_step G mu (fun x => b_term x nu mu)); lia).
    unfold link_sum. rewrite (lsum_swap (fun x p => _)). rewrite (lsum_swap (fun x mu => lsum (term x mu) (other_dirs mu))).
    unfold time_planes, space_planes, dirs, other_dirs. cbn [app filter Nat.eqb negb]. rewrite !lsum_cons, !lsum_nil. cbn [fst snd].
    assert (Q : forall mu nu, (mu < 4)%nat -> (nu < 4)%nat ->
      lsum (fun x => (- / 3 * (f_term x mu nu + f_term x nu mu + (b_term (step G x mu) nu mu + b_term (step G x nu) mu nu))))%R (all_coords G)
      = (- / 3 * (lsum (fun x => term x mu nu) (all_coords G) + lsum (fun x => term x nu mu) (all_coords G)))%R).
    { intros mu nu Hmu Hnu. rewrite lsum_scal. f_equal. unfold term. rewrite !lsum_plus, !S by assumption. lra. }
    rewrite !Q by lia.
    assert (W : forall mu a b c, lsum (fun x => lsum (term x mu) [a; b; c]) (all_coords G) =
      (lsum (fun x => term x mu a) (all_coords G) + lsum (fun x => term x mu b) (all_coords G) + lsum (fun x => term x mu c) (all_coords G))%R).
    { intros. rewrite (lsum_swap (fun x nu => term x mu nu)), !lsum_cons, lsum_nil. lra. }
    unfold dirs; cbn [filter Nat.eqb negb]; rewrite !W. lra.
Qed.
End Action.
