(** The even-odd preconditioned solver: the solution *)
From Coq Require Import Reals Lra Lia List Arith Setoid ZArith FunctionalExtensionality.
From Coquelicot Require Import Complex.
From Verif Require Import MatSpec MatProofs MatProofs4 MatAlg DiracModel DiracSpec DiracProofs TmModel TmSpec TmProofs TmAlg TmAlg2 TmEo CgModel TmSolveModel TmSolveProofs.
From Verif Require StagSpec StagAlg CgSpec CgAlg CgProofs CgStagModel CgStagProofs Prop_Cg.
Import ListNotations.
Open Scope C_scope.
Set Bullet Behavior "Strict Subproofs".

(** ** from one numbering to the other *)
Lemma put_same {A} (f : nat -> A) i v : put f i v i = v. Proof. unfold put. rewrite Nat.eqb_refl. reflexivity. Qed.
Lemma put_other {A} (f : nat -> A) i v j : j <> i -> put f i v j = f j. Proof. intros H. unfold put. destruct (Nat.eqb_spec j i); [contradiction|reflexivity]. Qed.
Lemma nodup_app {A} (l l' : list A) : NoDup l -> NoDup l' -> (forall x, In x l -> In x l' -> False) -> NoDup (l ++ l').
Proof.
  intros H H' D. induction H as [|x l N H IH]; [exact H'|]. cbn. constructor.
  - rewrite in_app_iff. intros [I|I]; [contradiction|]. apply (D x); [left; reflexivity|exact I].
  - apply IH. intros y Hy. apply D. right; exact Hy.
Qed.
Section Tables.
Variables (n : nat) (nupx ndwx : nat -> nat -> nat) (nup ndw : nat -> nat -> nat -> nat) (par eo : nat -> nat) (lx : nat -> nat -> nat).
Hypothesis T : eo_tables n nupx ndwx nup ndw par eo lx.
Lemma split_ok {A} ks (o : nat -> nat -> A) (f : nat -> A) p k : StagSpec.order (2 * n) ks -> (p < 2)%nat -> (k < n)%nat ->
  fold_left (fun (o : nat -> nat -> A) x => put o (par x) (put (o (par x)) (eo x) (f x))) ks o p k = f (lx p k).
Proof.
  intros [NDk Hk] Hp Hkn. destruct T as (T1 & T2 & _). destruct (T2 p k Hp Hkn) as (B & P & E).
  assert (G : forall l, (forall x, In x l -> (x < 2 * n)%nat) -> forall o, fold_left (fun (o : nat -> nat -> A) x => put o (par x) (put (o (par x)) (eo x) (f x))) l o p k = if in_dec Nat.eq_dec (lx p k) l then f (lx p k) else o p k).
  { clear NDk Hk ks o. induction l as [|x l IH] using rev_ind; intros Hl o; [destruct in_dec as [[]|]; reflexivity|].
    rewrite fold_left_app. cbn [fold_left]. assert (Hx : (x < 2 * n)%nat) by (apply Hl, in_or_app; right; left; reflexivity).
    destruct (T1 x Hx) as (_ & _ & Ex). destruct (Nat.eq_dec x (lx p k)) as [->|Nx].
    - rewrite P, E, !put_same. destruct (in_dec Nat.eq_dec (lx p k) (l ++ [lx p k])) as [|N]; [reflexivity|]. exfalso. apply N, in_or_app. right; left; reflexivity.
    - assert (V : put (fold_left (fun (o : nat -> nat -> A) x => put o (par x) (put (o (par x)) (eo x) (f x))) l o) (par x)
         (put (fold_left (fun (o : nat -> nat -> A) x => put o (par x) (put (o (par x)) (eo x) (f x))) l o (par x)) (eo x) (f x)) p k =
         fold_left (fun (o : nat -> nat -> A) x => put o (par x) (put (o (par x)) (eo x) (f x))) l o p k).
      { destruct (Nat.eq_dec p (par x)) as [->|]; [|rewrite put_other by assumption; reflexivity]. rewrite put_same.
        rewrite put_other; [reflexivity|]. intros ->. apply Nx. symmetry. exact Ex. }
      rewrite V, IH by (intros y Hy; apply Hl, in_or_app; left; exact Hy).
      destruct (in_dec Nat.eq_dec (lx p k) l) as [I|I], (in_dec Nat.eq_dec (lx p k) (l ++ [x])) as [J|J]; try reflexivity; exfalso.
      + apply J, in_or_app. left; exact I.
      + apply in_app_or in J. destruct J as [J|[J|[]]]; [contradiction|congruence]. }
  rewrite G by (intros x Hx; apply Hk; exact Hx). destruct in_dec as [|N]; [reflexivity|]. exfalso. apply N, Hk, B.
Qed.
Lemma paste_ok {A} (sched : nat -> list nat) l (o : nat -> A) (f : nat -> nat -> A) : (forall l, StagSpec.order n (sched l)) ->
  (forall p k, (p < 2)%nat -> (k < n)%nat -> paste_eo_parts_into_lx_vector sched lx l o f (lx p k) = f p k) /\
  (forall x, (2 * n <= x)%nat -> paste_eo_parts_into_lx_vector sched lx l o f x = o x).
Proof.
  intros Hs. destruct T as (T1 & T2 & _). unfold paste_eo_parts_into_lx_vector. cbn [fold_left].
  assert (G : forall p, (p < 2)%nat -> forall ks, (forall x, In x ks -> (x < n)%nat) -> forall o : nat -> A, 
     (forall k, (k < n)%nat -> fold_left (fun o eo => put o (lx p eo) (f p eo)) ks o (lx p k) = if in_dec Nat.eq_dec k ks then f p k else o (lx p k)) /\
     (forall y, (forall k, (k < n)%nat -> y <> lx p k) -> fold_left (fun o eo => put o (lx p eo) (f p eo)) ks o y = o y)).
  { intros p Hp. induction ks as [|x ks IH] using rev_ind; intros Hl o'; [split; [intros k _; destruct in_dec as [[]|]|]; reflexivity|].
    assert (Hx : (x < n)%nat) by (apply Hl, in_or_app; right; left; reflexivity).
    destruct (IH ltac:(intros y Hy; apply Hl, in_or_app; left; exact Hy) o') as [I1 I2]. split.
    - intros k Hk. rewrite fold_left_app. cbn [fold_left]. destruct (Nat.eq_dec k x) as [->|N].
      + rewrite put_same. destruct (in_dec Nat.eq_dec x (ks ++ [x])) as [|N]; [reflexivity|]. exfalso. apply N, in_or_app. right; left; reflexivity.
      + rewrite put_other.
        * rewrite I1 by exact Hk. destruct (in_dec Nat.eq_dec k ks) as [I|I], (in_dec Nat.eq_dec k (ks ++ [x])) as [J|J]; try reflexivity; exfalso.
          -- apply J, in_or_app. left; exact I.
          -- apply in_app_or in J. destruct J as [J|[J|[]]]; [contradiction|congruence].
        * intros E. apply N. destruct (T2 p k Hp Hk) as (_ & _ & <-), (T2 p x Hp Hx) as (_ & _ & <-). rewrite E. reflexivity.
    - intros y Hy. rewrite fold_left_app. cbn [fold_left]. rewrite put_other by (apply Hy; exact Hx). apply I2. exact Hy. }
  assert (O : forall p k ks, StagSpec.order n ks -> (k < n)%nat -> forall o : nat -> A, (p < 2)%nat -> fold_left (fun o eo => put o (lx p eo) (f p eo)) ks o (lx p k) = f p k).
  { intros p k ks [_ Hks] Hk o' Hp. destruct (G p Hp ks ltac:(intros; apply Hks; assumption) o') as [G1 _]. rewrite G1 by exact Hk.
    destruct in_dec as [|N]; [reflexivity|]. exfalso. apply N, Hks, Hk. }
  assert (B : forall l x, In x (sched l) -> (x < n)%nat) by (intros l' x; apply (Hs l')).
  split.
  - intros p k Hp Hk. destruct p as [|[|]]; [| |lia].
    + destruct (G 1%nat ltac:(lia) (sched (l + 1)%nat) ltac:(apply B) (fold_left (fun o eo => put o (lx 0%nat eo) (f 0%nat eo)) (sched (l + 0)%nat) o)) as [_ G2].
      rewrite G2. { apply O; auto. }
      intros k' Hk' E. destruct (T2 0%nat k ltac:(lia) Hk) as (_ & P0 & _), (T2 1%nat k' ltac:(lia) Hk') as (_ & P1 & _). rewrite E in P0. congruence.
    + apply O; auto.
  - intros x Hx. assert (N : forall p k, (p < 2)%nat -> (k < n)%nat -> x <> lx p k) by (intros p k Hp Hk ->; destruct (T2 p k Hp Hk); lia).
    destruct (G 1%nat ltac:(lia) (sched (l + 1)%nat) ltac:(apply B) (fold_left (fun o eo => put o (lx 0%nat eo) (f 0%nat eo)) (sched (l + 0)%nat) o)) as [_ G2].
    rewrite G2 by (intros; apply N; auto). destruct (G 0%nat ltac:(lia) (sched (l + 0)%nat) ltac:(apply B) o) as [_ G3]. apply G3. intros; apply N; auto.
Qed.
Definition eo_field (f : sfield) : nat -> sfield := fun p k => f (lx p k).
Lemma D_lx_eo U kappa anis mu f p : (p < 2)%nat ->
  (fun k => tmD nupx ndwx U kappa anis mu f (lx p k)) =[n]= tmD_eo nup ndw (fun p k => U (lx p k)) kappa anis mu p (eo_field f).
Proof.
  intros Hp k Hk s Hs c Hc. destruct T as (_ & _ & T3). unfold tmD, tmD_eo, sadd, sscale. f_equal.
  f_equal. unfold hop_lx, hop_eo, hops. apply csum_ext. intros mu' Hmu. destruct (T3 p k mu' Hp Hk Hmu) as [E1 E2]. rewrite E1, E2. reflexivity.
Qed.
Lemma csum_parity h : csum (2 * n) h = csum n (fun k => h (lx 0%nat k)) + csum n (fun k => h (lx 1%nat k)).
Proof.
  destruct T as (T1 & T2 & _). rewrite !StagAlg.csum_lsum, <- (StagAlg.lsum_map (seq 0 n) (lx 0%nat) h), <- (StagAlg.lsum_map (seq 0 n) (lx 1%nat) h), <- StagAlg.lsum_app. apply StagAlg.lsum_perm. apply Permutation.NoDup_Permutation.
  - apply seq_NoDup.
  - assert (M : forall p, (p < 2)%nat -> NoDup (map (lx p) (seq 0 n))).
    { intros p Hp. apply NoDup_map_inv with (f := eo). rewrite map_map. rewrite (map_ext_in _ (fun x => x)), map_id; [apply seq_NoDup|]. intros x Hx. apply in_seq in Hx. apply T2; [exact Hp|lia]. }
    apply nodup_app; [apply M; lia|apply M; lia|].
    intros y Hy Hy'. apply in_map_iff in Hy, Hy'. destruct Hy as (a & Ea & Ha), Hy' as (b & Eb & Hb). apply in_seq in Ha, Hb.
    destruct (T2 0%nat a ltac:(lia) ltac:(lia)) as (_ & P0 & _), (T2 1%nat b ltac:(lia) ltac:(lia)) as (_ & P1 & _). rewrite Ea in P0. rewrite Eb in P1. congruence.
  - intros x. rewrite in_app_iff, !in_map_iff, in_seq. split.
    + intros Hx. destruct (T1 x ltac:(lia)) as (P & E & X). destruct (par x) as [|[|]] eqn:Ep; [left|right|lia]; exists (eo x); rewrite in_seq; (split; [exact X|lia]).
    + intros [(k & <- & Hk)|(k & <- & Hk)]; apply in_seq in Hk; match goal with |- context [lx ?p k] => destruct (T2 p k ltac:(lia) ltac:(lia)) end; lia.
Qed.
Lemma sdot_parity f g : sdot (2 * n) f g = sdot n (eo_field f 0%nat) (eo_field g 0%nat) + sdot n (eo_field f 1%nat) (eo_field g 1%nat).
Proof. unfold TmSpec.sdot. apply csum_parity. Qed.
End Tables.
