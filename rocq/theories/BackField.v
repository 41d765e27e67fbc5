(** The field of a constant electromagnetic field: arithmetic of the arguments of the phases. *)
From Coq Require Import Reals Lra Lia.
From Coquelicot Require Import Coquelicot.
From Verif Require Import Base GeometryModel GeometrySpec HaloModel EoModel EoProofs LabelProofs StapleModel StapleSpec Prop_Staple StapleMain OwnerProofs IldgProofs
  CplxModel MatSpec BackModel BackSpec BackProofs BackFieldSpec BackEo.
Set Bullet Behavior "Strict Subproofs".
Open Scope Z_scope.

Definition curl (G : list Z) (a : list Z -> nat -> R) (x : list Z) (mu nu : nat) : R := (a x mu + a (step G x mu) nu - a x nu - a (step G x nu) mu)%R.
Definition zcurl (G : list Z) (a : list Z -> nat -> Z) (x : list Z) (mu nu : nat) : Z := a x mu + a (step G x mu) nu - a x nu - a (step G x nu) mu.
Lemma plaq_curl G A x mu nu : u1_plaquette G (phases A) x mu nu = expi (curl G A x mu nu).
Proof. unfold u1_plaquette, phases, curl. rewrite <- !expi_plus, expi_conj, <- expi_plus. f_equal. ring. Qed.

Section A.
Context (g : grid) (Hv : valid_grid g = true) (Heo : eo_grid_ok g = true).
Notation G := (glbSize g).
Lemma G_even mu : (mu < 4)%nat -> exists h, G.[mu] = 2 * h /\ 1 <= h.
Proof using Hv Heo.
  intros Hmu. destruct (loc_even g Hv Heo mu Hmu) as (h & E & Hh). destruct (dir_facts g Hv mu Hmu) as (_ & N & ->). exists ((nRanksDir g).[mu] * h). rewrite E. split; [ring|]. clear -N Hh. nia.
Qed.
Lemma in_range x mu : in_box x G -> (mu < 4)%nat -> 0 <= x.[mu] < G.[mu].
Proof using Hv. intros Hx Hmu. apply (proj2 (proj1 (in_box_nth x G) Hx)). rewrite IldgProofs.glb_len by exact Hv. exact Hmu. Qed.
Lemma step_at x mu c : in_box x G -> (mu < 4)%nat -> (step G x mu).[c] = if Nat.eqb c mu then (if x.[mu] + 1 =? G.[mu] then 0 else x.[mu] + 1) else x.[c].
Proof using Hv.
  intros Hx Hmu. pose proof (in_range x mu Hx Hmu) as R. assert (L : length x = 4%nat) by (rewrite (proj1 (proj1 (in_box_nth x G) Hx)); now apply IldgProofs.glb_len). unfold step, periodic_shift.
  destruct (Nat.eqb_spec c mu) as [->|N]; [|now rewrite nth_upd_neq by auto]. rewrite nth_upd_eq by (rewrite L; exact Hmu). clear -R. destruct (Z.eqb_spec (x.[mu] + 1) G.[mu]) as [->|E]; [apply Z.mod_same; lia|apply Z.mod_small; lia].
Qed.
(** the coordinate counted from the middle *)
Definition cent (L n : Z) : Z := if L / 2 <=? n then n - L else n.
Definition top (L n : Z) : bool := n =? L / 2 - 1.
Lemma cent_succ h n : 1 <= h -> 0 <= n < 2 * h -> cent (2 * h) (if n + 1 =? 2 * h then 0 else n + 1) - cent (2 * h) n = 1 - (if top (2 * h) n then 2 * h else 0).
Proof using.
  clear. intros Hh Hn. unfold cent, top. rewrite Z.mul_comm, Z.div_mul by lia.
  destruct (Z.eqb_spec (n + 1) (h * 2)); repeat match goal with |- context [?a <=? ?b] => destruct (Z.leb_spec a b) | |- context [?a =? ?b] => destruct (Z.eqb_spec a b) end; lia.
Qed.
Lemma cent_top h n : 1 <= h -> 0 <= n < 2 * h -> (cent (2 * h) n =? h - 1) = top (2 * h) n.
Proof using.
  clear. intros Hh Hn. unfold cent, top. rewrite Z.mul_comm, Z.div_mul by lia.
  repeat match goal with |- context [?a <=? ?b] => destruct (Z.leb_spec a b) | |- context [?a =? ?b] => destruct (Z.eqb_spec a b) end; lia.
Qed.
Definition half_half (L n : Z) : Z := if n <=? L / 2 then n - L / 4 else 3 * (L / 4) - n.
Lemma half_succ q n : 1 <= q -> 0 <= n < 4 * q -> half_half (4 * q) (if n + 1 =? 4 * q then 0 else n + 1) - half_half (4 * q) n = if n <? 4 * q / 2 then 1 else -1.
Proof using.
  clear. intros Hh Hn. unfold half_half. replace (4 * q / 2) with (2 * q) by (replace (4 * q) with (2 * q * 2) by ring; now rewrite Z.div_mul). rewrite Z.mul_comm, Z.div_mul by lia.
  destruct (Z.eqb_spec (n + 1) (q * 4)); repeat match goal with |- context [?a <=? ?b] => destruct (Z.leb_spec a b) | |- context [?a <? ?b] => destruct (Z.ltb_spec a b) end; lia.
Qed.
Lemma args1 x mu nu rho : (mu < 4)%nat -> (nu < 4)%nat -> mu <> nu -> in_box x G -> get_args_of_one_over_L2_quantization g x mu nu rho =
  if Nat.eqb rho nu then cent G.[mu] x.[mu] else if Nat.eqb rho mu then (if top G.[mu] x.[mu] then - cent G.[nu] x.[nu] * G.[mu] else 0) else 0.
Proof using Hv Heo.
  intros Hmu Hnu N Hx. destruct (G_even mu Hmu) as (h & Eh & Hh), (G_even nu Hnu) as (k & Ek & Hk). pose proof (in_range x mu Hx Hmu) as Rm. pose proof (in_range x nu Hx Hnu) as Rn.
  unfold get_args_of_one_over_L2_quantization. assert (Q : forall L, 0 <= L -> L ÷ 2 = L / 2) by (intros L HL; apply Z.quot_div_nonneg; clear -HL; lia). rewrite !Q by (clear -Eh Ek Hh Hk; lia).
  fold (cent G.[mu] x.[mu]). fold (cent G.[nu] x.[nu]). destruct (Nat.eqb rho nu); [reflexivity|].
  assert (T : (cent G.[mu] x.[mu] =? G.[mu] / 2 - 1) = top G.[mu] x.[mu]).
  { rewrite Eh at 2. rewrite Z.mul_comm, Z.div_mul by lia. rewrite Eh in Rm |- *. now apply cent_top. }
  rewrite T. destruct (top G.[mu] x.[mu]); [reflexivity|]. now destruct (Nat.eqb rho mu).
Qed.

Lemma zcurl_other (f : list Z -> nat -> Z) (mu nu : nat) : (forall x rho, in_box x G -> rho <> mu -> rho <> nu -> f x rho = 0) ->
  (forall x y rho, in_box x G -> in_box y G -> x.[mu] = y.[mu] -> x.[nu] = y.[nu] -> f x rho = f y rho) ->
  forall x a b, in_box x G -> (a < 4)%nat -> (b < 4)%nat -> ~ ((a = mu \/ a = nu) /\ (b = mu \/ b = nu)) -> zcurl G f x a b = 0.
Proof using Hv Heo.
  intros Z0 D x a b Hx Ha Hb N. unfold zcurl. assert (L4 : length G = 4%nat) by (now apply IldgProofs.glb_len).
  assert (Ba : in_box (step G x a) G) by (apply shift_in_box; [exact Hx|rewrite L4; exact Ha]). assert (Bb : in_box (step G x b) G) by (apply shift_in_box; [exact Hx|rewrite L4; exact Hb]).
  assert (K : forall c d, (c < 4)%nat -> ~ (c = mu \/ c = nu) -> in_box (step G x c) G -> f (step G x c) d = f x d).
  { intros c d Hc Nc Bc. apply D; [exact Bc|exact Hx| |]; rewrite step_at by assumption.
    - destruct (Nat.eqb_spec mu c); [exfalso; apply Nc; left; congruence|reflexivity].
    - destruct (Nat.eqb_spec nu c); [exfalso; apply Nc; right; congruence|reflexivity]. }
  destruct (Nat.eq_dec a mu) as [Ea|Ea]; [|destruct (Nat.eq_dec a nu) as [Ea'|Ea']].
  - assert (Nb : ~ (b = mu \/ b = nu)) by tauto. rewrite (K b a Hb Nb Bb), !(Z0 _ b) by tauto. lia.
  - assert (Nb : ~ (b = mu \/ b = nu)) by tauto. rewrite (K b a Hb Nb Bb), !(Z0 _ b) by tauto. lia.
  - rewrite (K a b Ha ltac:(tauto) Ba), !(Z0 _ a) by tauto. lia.
Qed.
Lemma zcurl1_other mu nu x a b : (mu < 4)%nat -> (nu < 4)%nat -> mu <> nu -> in_box x G -> (a < 4)%nat -> (b < 4)%nat -> ~ ((a = mu \/ a = nu) /\ (b = mu \/ b = nu)) ->
  zcurl G (fun x rho => get_args_of_one_over_L2_quantization g x mu nu rho) x a b = 0.
Proof using Hv Heo.
  intros Hmu Hnu N. apply zcurl_other.
  - intros y rho Hy A B. rewrite args1 by assumption. apply Nat.eqb_neq in A. apply Nat.eqb_neq in B. now rewrite A, B.
  - intros y z rho Hy Hz E1 E2. rewrite !args1 by assumption. now rewrite E1, E2.
Qed.
Lemma zcurl1_same mu nu x : (mu < 4)%nat -> (nu < 4)%nat -> mu <> nu -> in_box x G ->
  zcurl G (fun x rho => get_args_of_one_over_L2_quantization g x mu nu rho) x mu nu = 1 - (if (top G.[mu] x.[mu] && top G.[nu] x.[nu])%bool then G.[mu] * G.[nu] else 0).
Proof using Hv Heo.
  intros Hmu Hnu N Hx. assert (L4 : length G = 4%nat) by (now apply IldgProofs.glb_len).
  assert (Ba : in_box (step G x mu) G) by (apply shift_in_box; [exact Hx|rewrite L4; exact Hmu]). assert (Bb : in_box (step G x nu) G) by (apply shift_in_box; [exact Hx|rewrite L4; exact Hnu]).
  unfold zcurl. rewrite !args1 by assumption. rewrite !step_at by assumption. rewrite !Nat.eqb_refl. assert (E1 : Nat.eqb mu nu = false) by (now apply Nat.eqb_neq). assert (E2 : Nat.eqb nu mu = false) by (apply Nat.eqb_neq; congruence). rewrite E1.
  destruct (G_even mu Hmu) as (h & Eh & Hh), (G_even nu Hnu) as (k & Ek & Hk). pose proof (in_range x mu Hx Hmu) as Rm. pose proof (in_range x nu Hx Hnu) as Rn. rewrite Eh in Rm |- *. rewrite Ek in Rn |- *.
  pose proof (cent_succ h x.[mu] Hh Rm) as S1. pose proof (cent_succ k x.[nu] Hk Rn) as S2. clear -S1 S2. set (u := cent (2 * h) (if x.[mu] + 1 =? 2 * h then 0 else x.[mu] + 1)) in *. set (v := cent (2 * k) (if x.[nu] + 1 =? 2 * k then 0 else x.[nu] + 1)) in *. clearbody u v.
  destruct (top (2 * h) x.[mu]), (top (2 * k) x.[nu]); cbn [andb]; nia.
Qed.
Lemma args2 x mu nu rho : (mu < 4)%nat -> in_box x G -> G.[mu] mod 4 = 0 -> get_args_of_half_half_quantization g x mu nu rho = if Nat.eqb rho nu then half_half G.[mu] x.[mu] else 0.
Proof using Hv Heo.
  intros Hmu Hx D. destruct (G_even mu Hmu) as (h & Eh & Hh). pose proof (in_range x mu Hx Hmu) as Rm. unfold get_args_of_half_half_quantization, half_half.
  assert (E4 : G.[mu] = 4 * (G.[mu] / 4)) by (apply Z_div_exact_full_2; [lia|exact D]). rewrite !Z.quot_div_nonneg by (clear -Rm; lia). 
  replace (3 * G.[mu] / 4) with (3 * (G.[mu] / 4)); [reflexivity|]. rewrite E4 at 2. replace (3 * (4 * (G.[mu] / 4))) with (3 * (G.[mu] / 4) * 4) by ring. now rewrite Z.div_mul.
Qed.
Lemma zcurl2_other mu nu x a b : (mu < 4)%nat -> G.[mu] mod 4 = 0 -> in_box x G -> (a < 4)%nat -> (b < 4)%nat -> ~ ((a = mu \/ a = nu) /\ (b = mu \/ b = nu)) ->
  zcurl G (fun x rho => get_args_of_half_half_quantization g x mu nu rho) x a b = 0.
Proof using Hv Heo.
  intros Hmu D. apply zcurl_other.
  - intros y rho Hy A B. rewrite args2 by assumption. apply Nat.eqb_neq in B. now rewrite B.
  - intros y z rho Hy Hz E1 E2. rewrite !args2 by assumption. now rewrite E1.
Qed.
Lemma zcurl2_same mu nu x : (mu < 4)%nat -> (nu < 4)%nat -> mu <> nu -> G.[mu] mod 4 = 0 -> in_box x G ->
  zcurl G (fun x rho => get_args_of_half_half_quantization g x mu nu rho) x mu nu = if x.[mu] <? G.[mu] / 2 then 1 else -1.
Proof using Hv Heo.
  intros Hmu Hnu N D Hx. assert (L4 : length G = 4%nat) by (now apply IldgProofs.glb_len).
  assert (Ba : in_box (step G x mu) G) by (apply shift_in_box; [exact Hx|rewrite L4; exact Hmu]). assert (Bb : in_box (step G x nu) G) by (apply shift_in_box; [exact Hx|rewrite L4; exact Hnu]).
  unfold zcurl. rewrite !args2 by assumption. rewrite !step_at by assumption. rewrite !Nat.eqb_refl. assert (E1 : Nat.eqb mu nu = false) by (now apply Nat.eqb_neq). rewrite E1.
  assert (E4 : G.[mu] = 4 * (G.[mu] / 4)) by (apply Z_div_exact_full_2; [lia|exact D]). pose proof (in_range x mu Hx Hmu) as Rm. set (q := G.[mu] / 4) in *. clearbody q. rewrite E4 in Rm |- *.
  rewrite <- (half_succ q x.[mu]); [lia|clear -Rm; lia|exact Rm].
Qed.
End A.
