(** The inverse transform, and the transform of a convolution *)
From Verif Require Import Base GeometryModel GeometrySpec GeometryProofs OwnerProofs LabelProofs HaloProofs IldgProofs FftModel FftSpec FftAlg FftProofs.
From Coq Require Import Reals Lra FunctionalExtensionality.
From Coquelicot Require Import Complex.
Set Bullet Behavior "Strict Subproofs".
Local Open Scope Z_scope.

Section Inv.
Context (L : list Z) (HL : length L = 4%nat) (HP : Forall (fun n => 0 < n) L).
Lemma Lpos mu : (mu < 4)%nat -> 0 < L.[mu].
Proof. intros H. rewrite Forall_forall in HP. apply HP, nth_In. now rewrite HL. Qed.
Lemma upd_comm x m k a b : m <> k -> upd (upd x m a) k b = upd (upd x k b) m a.
Proof. revert m k. induction x as [|h t IH]; intros [|m] [|k] H; cbn; try reflexivity; try lia. now rewrite IH by lia. Qed.
Lemma upd_upd x m a b : upd (upd x m a) m b = upd x m b.
Proof. revert m. induction x as [|h t IH]; intros [|m]; cbn; try reflexivity. now rewrite IH. Qed.
Lemma upd_box' mu x t : (mu < 4)%nat -> in_box x L -> 0 <= t < L.[mu] -> in_box (upd x mu t) L.
Proof.
  intros Hmu Hx Ht. apply in_box_nth in Hx as [Lx H]. apply in_box_nth. split; [now rewrite upd_length|].
  intros m Hm. destruct (Nat.eq_dec m mu) as [->|Hne]; [rewrite nth_upd_eq by lia; exact Ht|]. rewrite nth_upd_neq by congruence. now apply H.
Qed.
Lemma box_mu x mu : in_box x L -> (mu < 4)%nat -> 0 <= x.[mu] < L.[mu].
Proof. intros H Hm. apply in_box_nth in H as [_ H]. apply H. now rewrite HL. Qed.

Lemma Ds_comm dirs s s' mu nu F : mu <> nu -> Ds L dirs s mu (Ds L dirs s' nu F) = Ds L dirs s' nu (Ds L dirs s mu F).
Proof.
  intros Hne. apply functional_extensionality. intros x. apply functional_extensionality. intros ic.
  rewrite !Ds_at.
  rewrite (zsum_ext _ _ (fun t => zsum (if dirs nu then L.[nu] else 1) (fun u => F (upd (upd x mu (if dirs mu then t else x.[mu])) nu (if dirs nu then u else x.[nu])) ic *
    (cis (s * (2 * PI) * (if dirs mu then IZR t * IZR x.[mu] / IZR L.[mu] else 0)) * cis (s' * (2 * PI) * (if dirs nu then IZR u * IZR x.[nu] / IZR L.[nu] else 0)))))%C).
  2:{ intros t _. rewrite Ds_at, <- zsum_scal_r. apply zsum_ext. intros u _. rewrite !nth_upd_neq by assumption. ring. }
  rewrite zsum_swap. apply zsum_ext. intros u _. rewrite Ds_at, <- zsum_scal_r. apply zsum_ext. intros t _.
  rewrite !nth_upd_neq by congruence. rewrite upd_comm by assumption. ring.
Qed.
Lemma Ds_ext_box dirs s mu F G ic : (mu < 4)%nat -> (forall y, in_box y L -> F y ic = G y ic) -> forall x, in_box x L -> Ds L dirs s mu F x ic = Ds L dirs s mu G x ic.
Proof.
  intros Hmu H x Hx. unfold Ds. destruct (dirs mu); [|now apply H]. unfold D1. apply zsum_ext. intros t Ht. rewrite H; [reflexivity|]. now apply upd_box'.
Qed.
Definition nmu (dirs : nat -> bool) mu : R := if dirs mu then IZR L.[mu] else 1%R.
Lemma Ds_inv dirs s mu F x ic : (s = 1 \/ s = -1)%R -> (mu < 4)%nat -> in_box x L -> Ds L dirs (- s) mu (Ds L dirs s mu F) x ic = (RtoC (nmu dirs mu) * F x ic)%C.
Proof.
  intros Hs Hmu Hx. unfold Ds, nmu. destruct (dirs mu); [|ring]. pose proof (Lpos mu Hmu) as HLp. pose proof (box_mu x mu Hx Hmu) as Hxm.
  assert (Hn0 : IZR L.[mu] <> 0%R) by (apply not_0_IZR; lia). assert (Lx : length x = 4%nat) by (apply in_box_length in Hx; congruence).
  unfold D1.
  rewrite (zsum_ext _ _ (fun t => zsum L.[mu] (fun u => F (upd x mu u) ic * cis (s * (2 * PI) * (IZR t * IZR (u - x.[mu]) / IZR L.[mu]))))%C).
  2:{ intros t _. rewrite <- zsum_scal_r. apply zsum_ext. intros u _. rewrite nth_upd_eq, upd_upd by lia.
      rewrite <- Cmult_assoc. f_equal. rewrite <- cis_plus. f_equal. rewrite minus_IZR. field. exact Hn0. }
  rewrite zsum_swap.
  rewrite (zsum_ext _ _ (fun u => F (upd x mu u) ic * (if (u - x.[mu]) mod L.[mu] =? 0 then RtoC (IZR L.[mu]) else RtoC 0))%C).
  2:{ intros u _. rewrite zsum_scal. f_equal. destruct Hs as [-> | ->].
      - rewrite <- char_sum by exact HLp. apply zsum_ext. intros k _. f_equal. ring.
      - replace ((u - x.[mu]) mod L.[mu] =? 0) with ((- (u - x.[mu])) mod L.[mu] =? 0).
        + rewrite <- char_sum by exact HLp. apply zsum_ext. intros k _. f_equal. rewrite opp_IZR. field. exact Hn0.
        + generalize (u - x.[mu]). intros z. pose proof (Z_mod_zero_opp_full z L.[mu]). pose proof (Z_mod_zero_opp_full (- z) L.[mu]). rewrite Z.opp_involutive in *.
          destruct (Z.eqb_spec ((- z) mod L.[mu]) 0), (Z.eqb_spec (z mod L.[mu]) 0); tauto. }
  rewrite (zsum_pick L.[mu] _ x.[mu] Hxm).
  - rewrite Z.sub_diag, Z.mod_0_l, Z.eqb_refl, upd_same by lia. ring.
  - intros j Hj Hne. destruct (Z.eqb_spec ((j - x.[mu]) mod L.[mu]) 0) as [E|_]; [|ring]. exfalso. apply Hne.
    apply Z.mod_divide in E as [k E]; [|lia]. assert (k = 0) by nia. nia.
Qed.
Lemma D4_inv dirs s F x ic : (s = 1 \/ s = -1)%R -> in_box x L -> D4 L dirs (- s) (D4 L dirs s F) x ic = (RtoC (dft_norm L dirs) * F x ic)%C.
Proof.
  intros Hs Hx. unfold D4.
  rewrite (Ds_comm dirs (- s) s 0 3), (Ds_comm dirs (- s) s 1 3), (Ds_comm dirs (- s) s 2 3) by lia.
  rewrite (Ds_comm dirs (- s) s 0 2), (Ds_comm dirs (- s) s 1 2) by lia. rewrite (Ds_comm dirs (- s) s 0 1) by lia.
  rewrite !Ds_inv by (lia || assumption). unfold dft_norm. fold (nmu dirs 0) (nmu dirs 1) (nmu dirs 2) (nmu dirs 3). rewrite !RtoC_mult. ring.
Qed.
Lemma dft_inv dirs s f x : (s = 1 \/ s = -1)%R -> in_box x L -> dft L dirs (- s) (dft L dirs s f) x = (RtoC (dft_norm L dirs) * f x)%C.
Proof.
  intros Hs Hx. destruct (box4 x L HL Hx) as (a & b & c & d & E). rewrite <- (D4_inv dirs s (fun y _ => f y) x 0%nat Hs Hx). rewrite E at 2. rewrite D4_dft. rewrite <- E.
  unfold dft at 1 3. cbv zeta. repeat (apply zsum_ext; intros ? ?). rewrite D4_dft. reflexivity.
Qed.

(** ** Convolution *)
Lemma zsum_shift n a (h : Z -> C) : 0 < n -> zsum n (fun k => h ((k - a) mod n)) = zsum n h.
Proof.
  intros Hn.
  assert (S1 : forall h : Z -> C, zsum n (fun k => h ((k + 1) mod n)) = zsum n h).
  { clear h. intros h. unfold zsum. destruct (Z.to_nat n) as [|m] eqn:E; [lia|]. assert (En : n = Z.of_nat m + 1) by lia. cbn [nsum].
    rewrite (nsum_ext m _ (fun k => h (k + 1))). 2:{ intros k Hk. rewrite Z.mod_small by lia. reflexivity. }
    replace ((Z.of_nat m + 1) mod n) with 0 by (rewrite <- En; symmetry; apply Z.mod_same; lia).
    clear. induction m as [|m IH]; cbn [nsum]; [change (Z.of_nat 0) with 0; reflexivity|].
    rewrite <- IH. replace (Z.of_nat (S m)) with (Z.of_nat m + 1) by lia. ring. }
  assert (Sn : forall m, 0 <= m -> zsum n (fun k => h ((k + m) mod n)) = zsum n h).
  { intros m Hm. pattern m. apply natlike_ind; [| |exact Hm].
    - apply zsum_ext. intros k Hk. rewrite Z.add_0_r, Z.mod_small by lia. reflexivity.
    - clear m Hm. intros m Hm IH. rewrite <- IH. rewrite <- (S1 (fun k => h ((k + m) mod n))). apply zsum_ext. intros k Hk.
      rewrite Z.add_mod_idemp_l by lia. f_equal. f_equal. lia. }
  rewrite <- (Sn ((- a) mod n)) by (apply Z.mod_pos_bound; lia). apply zsum_ext. intros k _. rewrite Z.add_mod_idemp_r by lia. reflexivity.
Qed.
Lemma bsum_ext f h : (forall x, in_box x L -> f x = h x) -> bsum L f = bsum L h.
Proof.
  intros H. unfold bsum. apply zsum_ext; intros d Hd. apply zsum_ext; intros c Hc. apply zsum_ext; intros b Hb. apply zsum_ext; intros a Ha. apply H.
  clear HP H. destruct L as [|l0 [|l1 [|l2 [|l3 [|]]]]]; try discriminate HL. cbn [nth] in *. apply in_box4. lia.
Qed.
Lemma bsum_scal_r a f : bsum L (fun x => f x * a)%C = (bsum L f * a)%C.
Proof. unfold bsum. rewrite <- zsum_scal_r. apply zsum_ext; intros d _. rewrite <- zsum_scal_r. apply zsum_ext; intros c _. rewrite <- zsum_scal_r. apply zsum_ext; intros b _. rewrite <- zsum_scal_r. reflexivity. Qed.
Lemma bsum_scal a f : bsum L (fun x => a * f x)%C = (a * bsum L f)%C.
Proof. rewrite Cmult_comm, <- bsum_scal_r. apply bsum_ext. intros. ring. Qed.
Lemma zsum_bsum n (h : Z -> list Z -> C) : zsum n (fun t => bsum L (h t)) = bsum L (fun y => zsum n (fun t => h t y)).
Proof.
  unfold bsum. rewrite zsum_swap. apply zsum_ext; intros d _. rewrite zsum_swap. apply zsum_ext; intros c _. rewrite zsum_swap. apply zsum_ext; intros b _. rewrite zsum_swap. reflexivity.
Qed.
Lemma bsum_swap (h : list Z -> list Z -> C) : bsum L (fun x => bsum L (fun y => h x y)) = bsum L (fun y => bsum L (fun x => h x y)).
Proof.
  unfold bsum at 1. rewrite <- (bsum_ext (fun y => zsum L.[3] (fun t3 => zsum L.[2] (fun t2 => zsum L.[1] (fun t1 => zsum L.[0] (fun t0 => h [t0; t1; t2; t3] y)))))) by reflexivity.
  rewrite <- zsum_bsum. apply zsum_ext; intros d _. rewrite <- zsum_bsum. apply zsum_ext; intros c _. rewrite <- zsum_bsum. apply zsum_ext; intros b _. rewrite <- zsum_bsum. reflexivity.
Qed.
Lemma bsum_shift y (h : list Z -> C) : bsum L (fun x => h (periodic_sub L x y)) = bsum L h.
Proof.
  unfold bsum, periodic_sub. cbn [map nth]. symmetry.
  rewrite <- (zsum_shift L.[3] y.[3]) by (apply Lpos; lia). apply zsum_ext; intros d _.
  rewrite <- (zsum_shift L.[2] y.[2]) by (apply Lpos; lia). apply zsum_ext; intros c _.
  rewrite <- (zsum_shift L.[1] y.[1]) by (apply Lpos; lia). apply zsum_ext; intros b _.
  rewrite <- (zsum_shift L.[0] y.[0]) by (apply Lpos; lia). reflexivity.
Qed.
Definition phase (x k : list Z) : R := (IZR x.[0] * IZR k.[0] / IZR L.[0] + IZR x.[1] * IZR k.[1] / IZR L.[1] + IZR x.[2] * IZR k.[2] / IZR L.[2] + IZR x.[3] * IZR k.[3] / IZR L.[3])%R.
Definition chi (x k : list Z) : C := cis (1 * (2 * PI) * phase x k).
Lemma dft_all f k : dft L (fun _ => true) 1 f k = bsum L (fun y => f y * chi y k)%C.
Proof. reflexivity. Qed.
Lemma chi_shift x y k : chi x k = (chi (periodic_sub L x y) k * chi y k)%C.
Proof.
  unfold chi. rewrite <- cis_plus. unfold phase, periodic_sub. cbn [map nth].
  assert (E : forall mu, (mu < 4)%nat -> exists z : Z, (IZR x.[mu] * IZR k.[mu] / IZR L.[mu] = IZR ((x.[mu] - y.[mu]) mod L.[mu]) * IZR k.[mu] / IZR L.[mu] + IZR y.[mu] * IZR k.[mu] / IZR L.[mu] + IZR z)%R).
  { intros mu Hmu. pose proof (Lpos mu Hmu) as Hp. assert (Hn0 : IZR L.[mu] <> 0%R) by (apply not_0_IZR; lia).
    exists ((x.[mu] - y.[mu]) / L.[mu] * k.[mu])%Z. pose proof (Z.div_mod (x.[mu] - y.[mu]) L.[mu] ltac:(lia)) as E.
    assert (Ex : x.[mu] = y.[mu] + (L.[mu] * ((x.[mu] - y.[mu]) / L.[mu]) + (x.[mu] - y.[mu]) mod L.[mu])) by lia.
    rewrite Ex at 1. rewrite !plus_IZR, !mult_IZR. field. exact Hn0. }
  destruct (E 0%nat ltac:(lia)) as [z0 ->]. destruct (E 1%nat ltac:(lia)) as [z1 ->]. destruct (E 2%nat ltac:(lia)) as [z2 ->]. destruct (E 3%nat ltac:(lia)) as [z3 ->].
  match goal with |- cis ?a = cis ?b => replace a with (b + 2 * PI * IZR (z0 + z1 + z2 + z3))%R end.
  - rewrite cis_plus, cis_2PI. ring.
  - rewrite !plus_IZR. ring.
Qed.
Lemma dft_conv f h k : dft L (fun _ => true) 1 (fun x => bsum L (fun y => f y * h (periodic_sub L x y)))%C k = (dft L (fun _ => true) 1 f k * dft L (fun _ => true) 1 h k)%C.
Proof.
  rewrite !dft_all.
  rewrite (bsum_ext _ (fun x => bsum L (fun y => (f y * chi y k) * (fun z => h z * chi z k) (periodic_sub L x y))%C)).
  2:{ intros x _. rewrite <- bsum_scal_r. apply bsum_ext. intros y _. rewrite (chi_shift x y k). ring. }
  rewrite bsum_swap, <- bsum_scal_r. apply bsum_ext. intros y _. rewrite bsum_scal. rewrite (bsum_shift y (fun z => h z * chi z k)%C). reflexivity.
Qed.
End Inv.
