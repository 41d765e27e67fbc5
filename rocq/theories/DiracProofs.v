From Coq Require Import Reals Lra Lia List ZArith Morphisms Setoid RelationClasses.
From Coquelicot Require Import Complex.
From Verif Require Import MatSpec DiracModel DiracSpec.
Import ListNotations.
Open Scope C_scope.
Set Bullet Behavior "Strict Subproofs".

Lemma lt4 (P : nat -> Prop) : P 0%nat -> P 1%nat -> P 2%nat -> P 3%nat -> forall i, (i < 4)%nat -> P i.
Proof. intros ? ? ? ? i H. do 4 (destruct i as [|i]; [assumption|]). lia. Qed.
Ltac ix i := first [revert dependent i; apply lt4].

Lemma rows_pos junk f i : (i < 4)%nat -> pos (rows junk f) i = fst (f i).
Proof. intros H. do 4 (destruct i as [|i]; [reflexivity|]). lia. Qed.
Lemma rows_entr junk f i : (i < 4)%nat -> entr (rows junk f) i = snd (f i).
Proof. intros H. do 4 (destruct i as [|i]; [reflexivity|]). lia. Qed.
Lemma csum4_pick (k : nat) (f : nat -> C) : (k < 4)%nat -> csum 4 (fun j => if Nat.eqb k j then f j else RtoC 0) = f k.
Proof. intros H. do 4 (destruct k as [|k]; [cbn; ring|]). lia. Qed.
Lemma csum_ext n f g : (forall i, (i < n)%nat -> f i = g i) -> csum n f = csum n g.
Proof. induction n as [|n IH]; intros H; [reflexivity|]. cbn [csum]. rewrite IH, H by (intros; try apply H; lia). reflexivity. Qed.

Lemma csum_scal_r n f c : csum n (fun k => f k * c) = csum n f * c.
Proof. induction n as [|n IH]; cbn [csum]; [ring|]. rewrite IH. ring. Qed.
Lemma csum_plus n f g : csum n (fun k => f k + g k) = csum n f + csum n g.
Proof. induction n as [|n IH]; cbn [csum]; [ring|]. rewrite IH. ring. Qed.
Lemma csum_zero n : csum n (fun _ => RtoC 0) = RtoC 0. Proof. induction n as [|n IH]; cbn [csum]; [reflexivity|]. rewrite IH. ring. Qed.
Lemma csum_swap n p f : csum n (fun a => csum p (fun b => f a b)) = csum p (fun b => csum n (fun a => f a b)).
Proof. induction n as [|n IH]; cbn [csum]; [symmetry; apply csum_zero|]. rewrite IH, <- csum_plus. reflexivity. Qed.
Lemma den_prod junk a b : valid a -> deq (den (dirac_prod junk a b)) (dmul (den a) (den b)).
Proof.
  intros V i j Hi Hj. unfold den at 1, dirac_prod. rewrite rows_pos, rows_entr by exact Hi. cbn [fst snd]. unfold dmul.
  transitivity (csum 4 (fun k => if Nat.eqb (pos a i) k then entr a i * den b k j else RtoC 0)).
  - rewrite csum4_pick by auto. unfold den. destruct (Nat.eqb _ _); ring.
  - apply csum_ext. intros k Hk. unfold den at 2. destruct (Nat.eqb _ _); ring.
Qed.
Lemma valid_prod junk a b : valid a -> valid b -> valid (dirac_prod junk a b).
Proof. intros Va Vb i Hi. unfold dirac_prod. rewrite rows_pos by exact Hi. cbn. auto. Qed.
Lemma den_prod_complex junk a c : deq (den (dirac_prod_complex junk a c)) (dscale c (den a)).
Proof. intros i j Hi Hj. unfold den, dirac_prod_complex, dscale. rewrite rows_pos, rows_entr by exact Hi. cbn [fst snd]. destruct (Nat.eqb _ _); ring. Qed.
Lemma den_prod_double junk a (r : R) : deq (den (dirac_prod_double junk a r)) (dscale r (den a)).
Proof. exact (den_prod_complex junk a r). Qed.
Lemma den_prod_idouble junk a (r : R) : deq (den (dirac_prod_idouble junk a r)) (dscale (Ci * r) (den a)).
Proof. exact (den_prod_complex junk a (Ci * r)). Qed.

Lemma rows_match (a b : dirac_matr) f junk :
  (same_pos a b -> row_loop (fun ig out => if Nat.eqb (pos a ig) (pos b ig) then Some (set_row out ig (pos a ig) (f ig)) else None) junk
     = Some (rows junk (fun ig => (pos a ig, f ig)))) /\
  (~ same_pos a b -> row_loop (fun ig out => if Nat.eqb (pos a ig) (pos b ig) then Some (set_row out ig (pos a ig) (f ig)) else None) junk = None).
Proof.
  split.
  - intros H. unfold row_loop, rows, NDIRAC. cbn [seq fold_left]. rewrite !H by lia. rewrite !Nat.eqb_refl. reflexivity.
  - intros H. unfold row_loop, NDIRAC. cbn [seq fold_left].
    destruct (Nat.eqb_spec (pos a 0) (pos b 0)); [|reflexivity]. destruct (Nat.eqb_spec (pos a 1) (pos b 1)); [|reflexivity].
    destruct (Nat.eqb_spec (pos a 2) (pos b 2)); [|reflexivity]. destruct (Nat.eqb_spec (pos a 3) (pos b 3)); [|reflexivity].
    exfalso. apply H. intros i. revert i. apply lt4; assumption.
Qed.
Lemma summ_ok junk a b :
  (same_pos a b -> exists s, dirac_summ junk a b = Some s /\ deq (den s) (dadd (den a) (den b)) /\ same_pos s a) /\ (~ same_pos a b -> dirac_summ junk a b = None).
Proof.
  destruct (rows_match a b (fun ig => entr a ig + entr b ig) junk) as [H1 H2]. split; [|exact H2].
  intros H. specialize (H1 H). eexists. split; [exact H1|]. split.
  - intros i j Hi Hj. unfold den, dadd. rewrite rows_pos, rows_entr by exact Hi. cbn [fst snd]. rewrite <- (H i Hi). destruct (Nat.eqb _ _); ring.
  - intros i Hi. rewrite rows_pos by exact Hi. reflexivity.
Qed.
Lemma subt_ok junk a b :
  (same_pos a b -> exists s, dirac_subt junk a b = Some s /\ deq (den s) (dsub (den a) (den b)) /\ same_pos s a) /\ (~ same_pos a b -> dirac_subt junk a b = None).
Proof.
  destruct (rows_match a b (fun ig => entr a ig - entr b ig) junk) as [H1 H2]. split; [|exact H2].
  intros H. specialize (H1 H). eexists. split; [exact H1|]. split.
  - intros i j Hi Hj. unfold den, dsub. rewrite rows_pos, rows_entr by exact Hi. cbn [fst snd]. rewrite <- (H i Hi). destruct (Nat.eqb _ _); ring.
  - intros i Hi. rewrite rows_pos by exact Hi. reflexivity.
Qed.

(** hermitian conjugate *)
Lemma herm_ok junk a : valid a ->
  (injective_pos a -> exists s, dirac_herm junk a = Some s /\ deq (den s) (ddag (den a)) /\ valid s /\ injective_pos s) /\ (~ injective_pos a -> dirac_herm junk a = None).
Proof.
  intros V. assert (E : forall p0 p1 p2 p3 e0 e1 e2 e3, pos a 0%nat = p0 -> pos a 1%nat = p1 -> pos a 2%nat = p2 -> pos a 3%nat = p3 ->
    entr a 0%nat = e0 -> entr a 1%nat = e1 -> entr a 2%nat = e2 -> entr a 3%nat = e3 ->
    dirac_herm junk a = if (Nat.eqb p0 p1 || (Nat.eqb p0 p2 || (Nat.eqb p0 p3 || false)))%bool then None else
      if (Nat.eqb p1 p2 || (Nat.eqb p1 p3 || false))%bool then None else if (Nat.eqb p2 p3 || false)%bool then None
      else Some (set_row (set_row (set_row (set_row junk p0 0 (Cconj e0)) p1 1 (Cconj e1)) p2 2 (Cconj e2)) p3 3 (Cconj e3))).
  { intros; subst. unfold dirac_herm, row_loop, NDIRAC. cbn [seq fold_left existsb Nat.add Nat.sub].
    destruct (Nat.eqb (pos a 0) (pos a 1) || (Nat.eqb (pos a 0) (pos a 2) || (Nat.eqb (pos a 0) (pos a 3) || false)))%bool; [reflexivity|].
    destruct (Nat.eqb (pos a 1) (pos a 2) || (Nat.eqb (pos a 1) (pos a 3) || false))%bool; [reflexivity|].
    destruct (Nat.eqb (pos a 2) (pos a 3) || false)%bool; reflexivity. }
  pose proof (V 0%nat ltac:(lia)) as V0. pose proof (V 1%nat ltac:(lia)) as V1. pose proof (V 2%nat ltac:(lia)) as V2. pose proof (V 3%nat ltac:(lia)) as V3.
  specialize (E _ _ _ _ _ _ _ _ eq_refl eq_refl eq_refl eq_refl eq_refl eq_refl eq_refl eq_refl).
  split; intros H.
  - assert (N : forall i j, (i < 4)%nat -> (j < 4)%nat -> i <> j -> Nat.eqb (pos a i) (pos a j) = false).
    { intros i j Hi Hj Hn. apply Nat.eqb_neq. intros F. apply Hn. apply H; assumption. }
    rewrite E, !N by lia. cbn [orb]. eexists. split; [reflexivity|].
    pose proof (N 0 1 ltac:(lia) ltac:(lia) ltac:(lia))%nat as N01. pose proof (N 0 2 ltac:(lia) ltac:(lia) ltac:(lia))%nat as N02.
    pose proof (N 0 3 ltac:(lia) ltac:(lia) ltac:(lia))%nat as N03. pose proof (N 1 2 ltac:(lia) ltac:(lia) ltac:(lia))%nat as N12.
    pose proof (N 1 3 ltac:(lia) ltac:(lia) ltac:(lia))%nat as N13. pose proof (N 2 3 ltac:(lia) ltac:(lia) ltac:(lia))%nat as N23.
    clear E. set (s := set_row _ _ _ _).
    assert (S : forall i, (i < 4)%nat -> pos s (pos a i) = i /\ entr s (pos a i) = Cconj (entr a i)).
    { assert (M : forall i j, Nat.eqb (pos a i) (pos a j) = Nat.eqb (pos a j) (pos a i)) by (intros; apply Nat.eqb_sym).
      refine (lt4 _ _ _ _ _); unfold s, set_row, put; cbn [pos entr];
        rewrite ?Nat.eqb_refl, ?N01, ?N02, ?N03, ?N12, ?N13, ?N23; split; reflexivity. }
    assert (T : forall k, (k < 4)%nat -> exists i, (i < 4)%nat /\ k = pos a i).
    { intros k Hk. apply Nat.eqb_neq in N01, N02, N03, N12, N13, N23.
      assert (k = pos a 0 \/ k = pos a 1 \/ k = pos a 2 \/ k = pos a 3)%nat as [F|[F|[F|F]]] by lia; eexists; (split; [|exact F]); lia. }
    split; [|split].
    + intros k j Hk Hj. destruct (T k Hk) as (i & Hi & ->). destruct (S i Hi) as [S1 S2]. unfold den, ddag. rewrite S1, S2.
      destruct (Nat.eqb_spec i j) as [<-|Hn]; [rewrite Nat.eqb_refl; reflexivity|]. rewrite N by auto. apply injective_projections; cbn; ring.
    + intros k Hk. destruct (T k Hk) as (i & Hi & ->). destruct (S i Hi) as [S1 _]. rewrite S1. exact Hi.
    + intros k k' Hk Hk'. destruct (T k Hk) as (i & Hi & ->). destruct (T k' Hk') as (i' & Hi' & ->). destruct (S i Hi) as [-> _]. destruct (S i' Hi') as [-> _]. congruence.
  - rewrite E.
    destruct (Nat.eqb_spec (pos a 0) (pos a 1)); [reflexivity|]. destruct (Nat.eqb_spec (pos a 0) (pos a 2)); [reflexivity|].
    destruct (Nat.eqb_spec (pos a 0) (pos a 3)); [reflexivity|]. destruct (Nat.eqb_spec (pos a 1) (pos a 2)); [reflexivity|].
    destruct (Nat.eqb_spec (pos a 1) (pos a 3)); [reflexivity|]. destruct (Nat.eqb_spec (pos a 2) (pos a 3)); [reflexivity|].
    exfalso. apply H. intros i j Hi Hj. revert i Hi. refine (lt4 _ _ _ _ _); revert j Hj; refine (lt4 _ _ _ _ _); intros F; congruence.
Qed.

(** ** The table, computed on the integers *)
Definition zc := (Z * Z)%type.
Definition inj (x : zc) : C := (IZR (fst x), IZR (snd x)).
Definition zadd (x y : zc) : zc := (fst x + fst y, snd x + snd y)%Z.
Definition zopp (x : zc) : zc := (- fst x, - snd x)%Z.
Definition zmul (x y : zc) : zc := (fst x * fst y - snd x * snd y, fst x * snd y + snd x * fst y)%Z.
Definition zconj (x : zc) : zc := (fst x, - snd x)%Z.
Lemma inj_add x y : inj (zadd x y) = inj x + inj y. Proof. unfold inj, zadd. cbn. rewrite !plus_IZR. reflexivity. Qed.
Lemma inj_mul x y : inj (zmul x y) = inj x * inj y. Proof. unfold inj, zmul. cbn. rewrite minus_IZR, plus_IZR, !mult_IZR. reflexivity. Qed.
Lemma inj_conj x : inj (zconj x) = Cconj (inj x). Proof. unfold inj, zconj. cbn. rewrite opp_IZR. reflexivity. Qed.
Lemma inj_opp x : inj (zopp x) = - inj x. Proof. unfold inj, zopp. cbn. rewrite !opp_IZR. reflexivity. Qed.
Fixpoint zsum (n : nat) (f : nat -> zc) : zc := match n with O => (0, 0)%Z | S k => zadd (zsum k f) (f k) end.
Lemma inj_sum n f : inj (zsum n f) = csum n (fun k => inj (f k)).
Proof. induction n as [|n IH]; [reflexivity|]. cbn [zsum csum]. rewrite inj_add, IH. reflexivity. Qed.
Definition zmat := nat -> nat -> zc.
Definition zdmul (x y : zmat) : zmat := fun i j => zsum 4 (fun k => zmul (x i k) (y k j)).
Definition zdadd (x y : zmat) : zmat := fun i j => zadd (x i j) (y i j).
Definition zdscale (c : zc) (x : zmat) : zmat := fun i j => zmul c (x i j).
Definition zddag (x : zmat) : zmat := fun i j => zconj (x j i).
Definition zdid : zmat := fun i j => if Nat.eqb i j then (1, 0)%Z else (0, 0)%Z.
Definition zdtrace (x : zmat) : zc := zsum 4 (fun i => x i i).
Definition zin (x : zmat) : dmat := fun i j => inj (x i j).
Lemma zin_mul x y : deq (zin (zdmul x y)) (dmul (zin x) (zin y)).
Proof. intros i j _ _. unfold zin, zdmul, dmul. rewrite inj_sum. apply csum_ext. intros. apply inj_mul. Qed.
Lemma zin_add x y : deq (zin (zdadd x y)) (dadd (zin x) (zin y)). Proof. intros i j _ _. apply inj_add. Qed.
Lemma zin_scale c x : deq (zin (zdscale c x)) (dscale (inj c) (zin x)). Proof. intros i j _ _. apply inj_mul. Qed.
Lemma zin_dag x : deq (zin (zddag x)) (ddag (zin x)). Proof. intros i j _ _. apply inj_conj. Qed.
Lemma zin_id : deq (zin zdid) did. Proof. intros i j _ _. unfold zin, zdid, did. destruct (Nat.eqb i j); reflexivity. Qed.
Lemma zin_trace x : inj (zdtrace x) = dtrace (zin x). Proof. apply inj_sum. Qed.
Definition zeqb (x y : zc) : bool := (Z.eqb (fst x) (fst y) && Z.eqb (snd x) (snd y))%bool.
Lemma zeqb_ok x y : zeqb x y = true -> x = y.
Proof. unfold zeqb. intros H. apply andb_prop in H. destruct H as [H1 H2]. apply Z.eqb_eq in H1, H2. destruct x, y. cbn in *. congruence. Qed.
Definition zdeqb (x y : zmat) : bool := forallb (fun i => forallb (fun j => zeqb (x i j) (y i j)) (seq 0 4)) (seq 0 4).
Lemma zdeqb_ok x y : zdeqb x y = true -> deq (zin x) (zin y).
Proof.
  intros H i j Hi Hj. unfold zin. f_equal. unfold zdeqb in H. rewrite forallb_forall in H. specialize (H i ltac:(apply in_seq; lia)).
  rewrite forallb_forall in H. specialize (H j ltac:(apply in_seq; lia)). apply zeqb_ok. exact H.
Qed.
(** equality of 4x4 matrices is an equality preserved by the operations *)
Global Instance deq_equiv : Equivalence deq.
Proof. split; [intros x i j _ _; reflexivity|intros x y H i j Hi Hj; symmetry; auto|intros x y z H K i j Hi Hj; rewrite H, K by assumption; reflexivity]. Qed.
Global Instance dmul_proper : Proper (deq ==> deq ==> deq) dmul.
Proof. intros x x' Hx y y' Hy i j Hi Hj. unfold dmul. apply csum_ext. intros k Hk. rewrite Hx, Hy by assumption. reflexivity. Qed.
Global Instance dadd_proper : Proper (deq ==> deq ==> deq) dadd. Proof. intros x x' Hx y y' Hy i j Hi Hj. unfold dadd. rewrite Hx, Hy by assumption. reflexivity. Qed.
Global Instance dsub_proper : Proper (deq ==> deq ==> deq) dsub. Proof. intros x x' Hx y y' Hy i j Hi Hj. unfold dsub. rewrite Hx, Hy by assumption. reflexivity. Qed.
Global Instance dscale_proper c : Proper (deq ==> deq) (dscale c). Proof. intros x x' Hx i j Hi Hj. unfold dscale. rewrite Hx by assumption. reflexivity. Qed.
Global Instance ddag_proper : Proper (deq ==> deq) ddag. Proof. intros x x' Hx i j Hi Hj. unfold ddag. rewrite Hx by assumption. reflexivity. Qed.
Lemma dtrace_proper x x' : deq x x' -> dtrace x = dtrace x'. Proof. intros H. apply csum_ext. intros. apply H; assumption. Qed.

Definition t (p0 : nat) (a0 b0 : Z) (p1 : nat) (a1 b1 : Z) (p2 : nat) (a2 b2 : Z) (p3 : nat) (a3 b3 : Z) : list (nat * zc) :=
  [(p0, (a0, b0)); (p1, (a1, b1)); (p2, (a2, b2)); (p3, (a3, b3))].
Definition ztable : list (list (nat * zc)) := [
  t 0 1 0  1 1 0  2 1 0  3 1 0 ;
  t 3 0 (-1) 2 0 (-1) 1 0 1  0 0 1 ;
  t 3 (-1) 0 2 1 0  1 1 0  0 (-1) 0;
  t 2 0 (-1) 3 0 1  0 0 1  1 0 (-1);
  t 2 (-1) 0 3 (-1) 0 0 (-1) 0 1 (-1) 0;
  t 0 1 0  1 1 0  2 (-1) 0 3 (-1) 0;
  t 3 0 1  2 0 1  1 0 1  0 0 1 ;
  t 3 1 0  2 (-1) 0 1 1 0  0 (-1) 0;
  t 2 0 1  3 0 (-1) 0 0 1  1 0 (-1);
  t 2 1 0  3 1 0  0 (-1) 0 1 (-1) 0;
  t 1 0 (-1) 0 0 (-1) 3 0 1  2 0 1 ;
  t 1 (-1) 0 0 1 0  3 1 0  2 (-1) 0;
  t 0 0 (-1) 1 0 1  2 0 1  3 0 (-1);
  t 1 0 1  0 0 1  3 0 1  2 0 1 ;
  t 1 1 0  0 (-1) 0 3 1 0  2 (-1) 0;
  t 0 0 1  1 0 (-1) 2 0 1  3 0 (-1) ].
Definition zG (i : nat) : zmat := fun r c => let e := nth r (nth i ztable []) (0%nat, (0, 0)%Z) in if Nat.eqb (fst e) c then snd e else (0, 0)%Z.
Section Table.
Variable junk : dirac_matr.
Definition G (i : nat) : dmat := den (base_gamma junk i).
Lemma zG_ok i : (i < 16)%nat -> deq (G i) (zin (zG i)).
Proof. intros Hi r c Hr Hc. do 16 (destruct i as [|i]; [do 4 (destruct r as [|r]; [do 4 (destruct c as [|c]; [reflexivity|]); lia|]); lia|]). lia. Qed.
Lemma gamma_valid i : (i < 19)%nat -> valid (base_gamma junk i) /\ injective_pos (base_gamma junk i).
Proof.
  intros Hi. do 19 (destruct i as [|i]; [split; [refine (lt4 _ _ _ _ _); cbn; lia|
    intros p q Hp Hq; revert p Hp; refine (lt4 _ _ _ _ _); revert q Hq; refine (lt4 _ _ _ _ _); cbn; congruence]|]). lia.
Qed.
Ltac small i n := do n (destruct i as [|i]; [try lia|]); [..|lia].
Lemma gamma_herm a : (a <= 5)%nat -> deq (ddag (G a)) (G a).
Proof. intros H. rewrite zG_ok by lia. rewrite <- zin_dag. apply zdeqb_ok. do 6 (destruct a as [|a]; [vm_compute; reflexivity|]). lia. Qed.
Lemma gamma_id : deq (G 0) did. Proof. rewrite zG_ok by lia. rewrite <- zin_id. apply zdeqb_ok. reflexivity. Qed.
Lemma clifford a b : (1 <= a <= 5)%nat -> (1 <= b <= 5)%nat ->
  deq (dadd (dmul (G a) (G b)) (dmul (G b) (G a))) (dscale (RtoC (if Nat.eqb a b then 2 else 0)) did).
Proof.
  intros Ha Hb. rewrite !zG_ok by lia. rewrite <- !zin_mul, <- zin_add, <- zin_id.
  replace (RtoC (if Nat.eqb a b then 2 else 0)) with (inj (if Nat.eqb a b then 2 else 0, 0)%Z) by (destruct (Nat.eqb a b); reflexivity).
  rewrite <- zin_scale. apply zdeqb_ok.
  do 6 (destruct a as [|a]; [try lia; do 6 (destruct b as [|b]; [try lia; vm_compute; reflexivity|]); lia|]). lia.
Qed.
Lemma products : deq (G 5) (dmul (G 4) (dmul (G 1) (dmul (G 2) (G 3)))).
Proof. rewrite !zG_ok by lia; rewrite <- !zin_mul; apply zdeqb_ok; vm_compute; reflexivity. Qed.
Lemma axial a : (1 <= a <= 4)%nat -> deq (G (5 + a)) (dmul (G a) (G 5)).
Proof. intros H. rewrite !zG_ok by lia. rewrite <- zin_mul. apply zdeqb_ok. do 5 (destruct a as [|a]; [try lia; vm_compute; reflexivity|]). lia. Qed.
Lemma tensor a : (1 <= a <= 3)%nat -> deq (G (9 + a)) (dmul (G 4) (G a)).
Proof. intros H. rewrite !zG_ok by lia. rewrite <- zin_mul. apply zdeqb_ok. do 4 (destruct a as [|a]; [try lia; vm_compute; reflexivity|]). lia. Qed.
Lemma tensor2 : deq (G 13) (dmul (G 2) (G 3)) /\ deq (G 14) (dmul (G 3) (G 1)) /\ deq (G 15) (dmul (G 1) (G 2)).
Proof. split; [|split]; rewrite !zG_ok by lia; rewrite <- zin_mul; apply zdeqb_ok; vm_compute; reflexivity. Qed.
Lemma third a : (1 <= a <= 3)%nat -> deq (G (15 + a)) (dmul (G 4) (dmul (G a) (G 5))).
Proof.
  intros H. transitivity (dmul (G 4) (G (5 + a))); [|rewrite axial by lia; reflexivity].
  do 4 (destruct a as [|a]; [try lia; apply den_prod; exact (proj1 (gamma_valid 4 ltac:(lia)))|]). lia.
Qed.
Lemma orthogonal a b : (a < 16)%nat -> (b < 16)%nat -> dtrace (dmul (ddag (G a)) (G b)) = RtoC (if Nat.eqb a b then 4 else 0).
Proof.
  intros Ha Hb. transitivity (inj (zdtrace (zdmul (zddag (zG a)) (zG b)))).
  - rewrite zin_trace. apply dtrace_proper. rewrite !zG_ok by lia. rewrite <- zin_dag, <- zin_mul. reflexivity.
  - do 16 (destruct a as [|a]; [do 16 (destruct b as [|b]; [vm_compute; reflexivity|]); lia|]). lia.
Qed.
(** every matrix is the combination of the sixteen with the coefficients read off by the traces *)
Lemma deq_entry x y i j : deq x y -> (i < 4)%nat -> (j < 4)%nat -> x i j = y i j. Proof. intros H. apply H. Qed.
Lemma complete x : deq (fun i j => csum 16 (fun a => dtrace (dmul (ddag (G a)) x) * G a i j)) (dscale (RtoC 4) x).
Proof.
  assert (E : forall a, (a < 16)%nat -> dtrace (dmul (ddag (G a)) x) = csum 4 (fun i => csum 4 (fun k => Cconj (inj (zG a k i)) * x k i))).
  { intros a Ha. apply csum_ext. intros i Hi. apply csum_ext. intros k Hk. unfold ddag. rewrite (zG_ok a Ha k i Hk Hi). reflexivity. }
  intros i j Hi Hj. unfold dscale.
  transitivity (csum 16 (fun a => csum 4 (fun q => csum 4 (fun k => inj (zmul (zconj (zG a k q)) (zG a i j)) * x k q)))).
  { apply csum_ext. intros a Ha. rewrite E by exact Ha. rewrite (zG_ok a Ha i j Hi Hj).
    rewrite <- csum_scal_r. apply csum_ext. intros q Hq. rewrite <- csum_scal_r. apply csum_ext. intros k Hk. rewrite inj_mul, inj_conj. unfold zin. ring. }
  rewrite csum_swap. transitivity (csum 4 (fun q => csum 4 (fun k => inj (zsum 16 (fun a => zmul (zconj (zG a k q)) (zG a i j))) * x k q))).
  { apply csum_ext. intros q Hq. rewrite csum_swap. apply csum_ext. intros k Hk. rewrite inj_sum, csum_scal_r. reflexivity. }
  assert (Z : forall q k, (q < 4)%nat -> (k < 4)%nat -> zsum 16 (fun a => zmul (zconj (zG a k q)) (zG a i j)) = if (Nat.eqb q j && Nat.eqb k i)%bool then (4, 0)%Z else (0, 0)%Z).
  { intros q k Hq Hk. revert i Hi. refine (lt4 _ _ _ _ _); revert j Hj; refine (lt4 _ _ _ _ _); revert q Hq; refine (lt4 _ _ _ _ _);
      revert k Hk; refine (lt4 _ _ _ _ _); vm_compute; reflexivity. }
  transitivity (csum 4 (fun q => if Nat.eqb j q then csum 4 (fun k => if Nat.eqb i k then RtoC 4 * x k q else RtoC 0) else RtoC 0)).
  { apply csum_ext. intros q Hq. rewrite (Nat.eqb_sym j q). destruct (Nat.eqb q j) eqn:Q.
    - apply csum_ext. intros k Hk. rewrite Z, Q, (Nat.eqb_sym i k) by assumption. destruct (Nat.eqb k i); cbn [andb]; [reflexivity|]. apply injective_projections; cbn; ring.
    - transitivity (csum 4 (fun _ => RtoC 0)); [|cbn; ring]. apply csum_ext. intros k Hk. rewrite Z, Q by assumption. cbn [andb]. apply injective_projections; cbn; ring. }
  rewrite (csum4_pick j) by exact Hj. rewrite (csum4_pick i) by exact Hi. reflexivity.
Qed.
(** twisting *)
Lemma rad2_sq : (rad2 * rad2 = / 2)%R.
Proof. unfold rad2. pose proof (sqrt_sqrt 2 ltac:(lra)) as H. assert (sqrt 2 <> 0)%R by (intros F; rewrite F in H; lra). replace (/ 2)%R with (/ (sqrt 2 * sqrt 2))%R by (rewrite H; reflexivity). field. assumption. Qed.
Lemma Pplus_val : deq (den Pplus) (dscale (RtoC rad2) (dadd did (dscale Ci (G 5)))).
Proof. intros i j Hi Hj. revert i Hi. refine (lt4 _ _ _ _ _); revert j Hj; refine (lt4 _ _ _ _ _); apply injective_projections; cbn; ring. Qed.
Lemma Pminus_val : deq (den Pminus) (dscale (RtoC rad2) (dsub did (dscale Ci (G 5)))).
Proof. intros i j Hi Hj. revert i Hi. refine (lt4 _ _ _ _ _); revert j Hj; refine (lt4 _ _ _ _ _); apply injective_projections; cbn; ring. Qed.
Lemma P_square : deq (dmul (den Pplus) (den Pplus)) (dscale Ci (G 5)).
Proof.
  pose proof rad2_sq as H. intros i j Hi Hj. revert i Hi. refine (lt4 _ _ _ _ _); revert j Hj; refine (lt4 _ _ _ _ _); apply injective_projections; cbn; lra.
Qed.
Lemma P_inverse : deq (dmul (den Pplus) (den Pminus)) did /\ deq (dmul (den Pminus) (den Pplus)) did.
Proof.
  pose proof rad2_sq as H. split; intros i j Hi Hj; revert i Hi; refine (lt4 _ _ _ _ _); revert j Hj; refine (lt4 _ _ _ _ _); apply injective_projections; cbn; lra.
Qed.
(** smunu[munu] for munu = 01 02 03 12 13 23 *)
Lemma smunu_val imunu : (imunu < 6)%nat ->
  deq (den (smunu junk imunu)) (dmul (G (iGammaOfMu (nth imunu [0; 0; 0; 1; 1; 2] 0)%nat)) (G (iGammaOfMu (nth imunu [1; 2; 3; 2; 3; 3] 0)%nat))).
Proof.
  intros H. do 6 (destruct imunu as [|imunu]; [
    match goal with |- deq _ (dmul (G ?a) (G ?b)) => let a' := eval cbv in a in let b' := eval cbv in b in change a with a'; change b with b' end;
    rewrite !zG_ok by lia; rewrite <- zin_mul; intros i j Hi Hj; revert i Hi; refine (lt4 _ _ _ _ _); revert j Hj; refine (lt4 _ _ _ _ _);
    apply injective_projections; cbn; ring|]). lia.
Qed.
End Table.
