(** Reciprocal, square root, and the routines which do not do what their name says. *)
From Coq Require Import Reals Lra List.
From Coquelicot Require Import Complex.
From Verif Require Import CplxModel CplxSpec CplxProofs CplxStores MatModel MatProofs4.
Open Scope C_scope.
Set Bullet Behavior "Strict Subproofs".

Lemma reciprocal_sets r c m : m c <> RtoC 0 -> forall p, complex_reciprocal r c m p = if path_dec p r then / m c else m p.
Proof. intros H p. rewrite complex_reciprocal_st, reciprocal_ok by exact H. reflexivity. Qed.
Lemma complex_sqrt_st r c m : exists v, complex_sqrt r c m = upd m r v /\ (m c <> RtoC 0 -> v * v = m c) /\ (0 <= snd v)%R.
Proof.
  unfold complex_sqrt. cbv zeta. set (x := re m c). set (y := im m c). set (n := sqrt (x * x + y * y)).
  set (sn := sqrt (/ 2 * (1 - x / n))). set (cs := sqrt (/ 2 * (1 + x / n))).
  exists ((if Rle_dec 0 y then sqrt n * cs else - sqrt n * cs)%R, (sqrt n * sn)%R). split; [|split].
  - apply FunctionalExtensionality.functional_extensionality. intros p. destruct (Rle_dec 0 y); rewrite set_re_im; reflexivity.
  - intros H. assert (Hn : (0 < n)%R).
    { unfold n. apply sqrt_lt_R0. assert (D : x <> 0%R \/ y <> 0%R).
      { destruct (Req_dec x 0) as [E|E]; [|now left]. destruct (Req_dec y 0) as [F|F]; [|now right]. exfalso. apply H. apply pair_eq; assumption. }
      destruct D; nra. }
    assert (Hn2 : (n * n = x * x + y * y)%R) by (apply sqrt_sqrt; nra).
    assert (B : (- 1 <= x / n <= 1)%R).
    { assert (Q : (x * x <= n * n)%R) by (rewrite Hn2; pose proof (Rle_0_sqr y) as Q; unfold Rsqr in Q; lra). assert (- n <= x <= n)%R by (clear - Q Hn; split; [destruct (Rle_lt_dec (- n) x); [assumption|nra]|destruct (Rle_lt_dec x n); [assumption|nra]]). split; [apply Rmult_le_reg_r with n; [lra|]|apply Rmult_le_reg_r with n; [lra|]]; replace (x / n * n)%R with x by (field; lra); lra. }
    assert (S2 : (sn * sn = / 2 * (1 - x / n))%R) by (apply sqrt_sqrt; lra). assert (C2 : (cs * cs = / 2 * (1 + x / n))%R) by (apply sqrt_sqrt; lra).
    assert (N2 : (sqrt n * sqrt n = n)%R) by (apply sqrt_sqrt; lra).
    assert (P : (n * (2 * (cs * sn)) = Rabs y)%R).
    { assert (0 <= cs)%R by apply sqrt_pos. assert (0 <= sn)%R by apply sqrt_pos.
      apply Rsqr_inj; [repeat apply Rmult_le_pos; lra|apply Rabs_pos|]. rewrite <- Rsqr_abs. unfold Rsqr.
      replace (n * (2 * (cs * sn)) * (n * (2 * (cs * sn))))%R with (4 * (n * n) * (cs * cs) * (sn * sn))%R by ring. rewrite S2, C2.
      replace (4 * (n * n) * (/ 2 * (1 + x / n)) * (/ 2 * (1 - x / n)))%R with (n * n - x * x)%R by (field; lra). lra. }
    assert (K : (n * (x / n) = x)%R) by (field; lra).
    apply pair_eq.
    + cbn [fst snd Cmult]. change (fst (m c)) with x. set (A := sqrt n) in *. destruct (Rle_dec 0 y) as [Y|Y].
      * replace (A * cs * (A * cs) - A * sn * (A * sn))%R with (A * A * (cs * cs - sn * sn))%R by ring. rewrite N2, S2, C2. rewrite <- K at 3. field. lra.
      * replace (- A * cs * (- A * cs) - A * sn * (A * sn))%R with (A * A * (cs * cs - sn * sn))%R by ring. rewrite N2, S2, C2. rewrite <- K at 3. field. lra.
    + cbn [fst snd Cmult]. change (snd (m c)) with y. set (A := sqrt n) in *. destruct (Rle_dec 0 y) as [Y|Y].
      * replace (A * cs * (A * sn) + A * sn * (A * cs))%R with (A * A * (2 * (cs * sn)))%R by ring. rewrite N2, P. apply Rabs_pos_eq. exact Y.
      * replace (- A * cs * (A * sn) + A * sn * (- A * cs))%R with (- (A * A * (2 * (cs * sn))))%R by ring. rewrite N2, P, Rabs_left by lra. ring.
  - cbn [snd]. apply Rmult_le_pos; apply sqrt_pos.
Qed.
Lemma prod_alias : exists a c m, a <> c /\ unsafe_complex_prod a a c m a <> m a * m c.
Proof.
  exists (cons 0%nat nil), (cons 1%nat nil), (fun _ => (1%R, 1%R)). split; [discriminate|]. intros H. apply (f_equal snd) in H. unfold unsafe_complex_prod in H.
  cbn in H. lra.
Qed.
Lemma conj1_i_value a b c : sets (complex_summ_the_conj1_prod_i a b c) a (fun m => m a + Cconj (m b) * m c) /\ sets (complex_subt_the_conj1_prod_i a b c) a (fun m => m a - Cconj (m b) * m c).
Proof.
  split; intros m p; unfold complex_summ_the_conj1_prod_i, complex_subt_the_conj1_prod_i;
    [rewrite (complex_summ_the_conj2_prod_ok a c b 0%R 0%R m p)|rewrite (complex_subt_the_conj2_prod_ok a c b 0%R 0%R m p)]; destruct (path_dec p a); try reflexivity; ring.
Qed.
Lemma complex_sqrt_ends r c m : m c <> RtoC 0 ->
  complex_sqrt r c m r * complex_sqrt r c m r = m c /\ (0 <= snd (complex_sqrt r c m r))%R /\ forall p, p <> r -> complex_sqrt r c m p = m p.
Proof.
  intros H. destruct (complex_sqrt_st r c m) as (v & E & S & P). rewrite E, upd_same. split; [now apply S|]. split; [exact P|]. intros p N. now apply upd_other.
Qed.
