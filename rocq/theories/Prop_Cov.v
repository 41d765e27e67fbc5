(** C98: covariant translations, Laplace operators and symmetric derivative.  C99: gaussian smearing. *)
From Coq Require Import Reals Lra Lia List Arith ZArith Setoid.
From Coquelicot Require Import Complex.
From Verif Require Import MatSpec MatAlg DiracModel DiracSpec DiracProofs TmModel TmSpec TmProofs TmAlg TmAlg2 CovModel CovSpec CovProofs CovAlg.
From Verif Require StagSpec.
Import ListNotations.
Open Scope C_scope.
Set Bullet Behavior "Strict Subproofs".
Notation sdot := TmSpec.sdot.

(** C98: the routines compute the operators, whatever the order of the sites, and change nothing else than the output and the field of service; the derivative may work in place, and the
    result is zero on the other times if a time is asked *)
Theorem C98_routines : forall n sched nup ndw conf l out temp mu inp reset dirs time t m, (forall l, StagSpec.order n (sched l)) -> lattice_lx n nup ndw -> (mu < 4)%nat ->
  (out <> inp -> sets_obj n (cshift_bw sched nup conf l out mu inp reset) out (fun m => if reset then transl nup conf mu (m inp) else sadd (m out) (transl nup conf mu (m inp)))) /\
  (out <> inp -> sets_obj n (cshift_fw sched ndw conf l out mu inp reset) out (fun m => if reset then transl' ndw conf mu (m inp) else sadd (m out) (transl' ndw conf mu (m inp)))) /\
  (out <> inp -> sets_obj n (Laplace_operator sched nup ndw conf l out dirs inp) out (fun m => lapl nup ndw conf dirs (m inp))) /\
  (NoDup [out; temp; inp] -> let m' := Laplace_operator_2_links sched nup ndw conf l out temp dirs inp m in
    m' out =[n]= lapl2 nup ndw conf dirs (m inp) /\ forall a x, (a <> out /\ a <> temp) \/ (n <= x)%nat -> m' a x = m a x) /\
  (temp <> inp -> let m' := apply_nabla_i sched nup ndw conf time l out temp inp mu t m in
    (forall x, (x < n)%nat -> forall s, (s < 4)%nat -> veq (m' out x s) (if ((t =? -1)%Z || (time x =? t)%Z)%bool then sscale (RtoC 2) (symd nup ndw conf mu (m inp)) x s else fun _ => RtoC 0)) /\
    forall a x, (a <> out /\ a <> temp) \/ (n <= x)%nat -> m' a x = m a x).
Proof.
  intros n sched nup ndw conf l out temp mu inp reset dirs time t m Hs L Hmu. split; [|split; [|split; [|split]]].
  - intros. apply bw_ok; assumption.
  - intros. apply fw_ok; assumption.
  - intros. apply lapl_ok; assumption.
  - intros N m'. assert (D : out <> temp /\ out <> inp /\ temp <> inp) by (inversion_clear N as [|? ? I1 N1]; inversion_clear N1 as [|? ? I2 N2]; cbn in *; intuition congruence). destruct D as (D1 & D2 & D3).
    apply (lapl2_ok n sched Hs nup ndw conf L l out temp dirs inp m D2 D3 D1).
  - intros D m'. destruct (nabla_ok n sched Hs nup ndw conf time l out temp inp mu t m Hmu D) as [A B]. split; [|exact B].
    intros x Hx s Hs0 c Hc. unfold m'. rewrite (A x Hx s Hs0 c Hc). destruct (_ || _)%bool; [|reflexivity]. unfold symd. unfold sscale at 1 2. replace (RtoC 2) with (RtoC 1 + RtoC 1) by (apply injective_projections; cbn; ring).
    set (z := ssub _ _ x s c). rewrite Cmult_assoc. replace ((RtoC 1 + RtoC 1) * RtoC (1 / 2)) with (RtoC 1) by (apply injective_projections; cbn; lra). ring.
Qed.
Print Assumptions C98_routines.

(** C98: the two translations are the adjoint of each other, and with links in the group one the inverse of the other: they keep the norm *)
Theorem C98_translations : forall n nup ndw U mu f g, lattice_lx n nup ndw -> (mu < 4)%nat ->
  sdot n f (transl nup U mu g) = sdot n (transl' ndw U mu f) g /\
  (ulinks n U -> transl' ndw U mu (transl nup U mu f) =[n]= f /\ transl nup U mu (transl' ndw U mu f) =[n]= f /\ norm2 n (transl nup U mu f) = norm2 n f /\ norm2 n (transl' ndw U mu f) = norm2 n f).
Proof.
  intros n nup ndw U mu f g L Hmu. split; [apply (T_adj n nup ndw L U mu f g Hmu)|]. intros HU. destruct (T_norm n nup ndw L U mu f HU Hmu).
  split; [apply (T'T n nup ndw L U mu f HU Hmu)|]. split; [apply (TT' n nup ndw L U mu f HU Hmu)|]. split; assumption.
Qed.
Print Assumptions C98_translations.

(** C98: the derivative is antihermitian and the Laplace operator hermitian; with links in the group its mean value is minus the sum of the squares of the covariant differences, and the
    operator on two links is the sum of the squares of the symmetric derivatives: both are negative *)
Theorem C98_operators : forall n nup ndw U dirs f g, lattice_lx n nup ndw ->
  (forall mu, (mu < 4)%nat -> sdot n f (symd nup ndw U mu g) = - sdot n (symd nup ndw U mu f) g) /\
  sdot n f (lapl nup ndw U dirs g) = sdot n (lapl nup ndw U dirs f) g /\
  (ulinks n U ->
    sdot n f (lapl nup ndw U dirs f) = - csum 4 (fun mu => if dirs mu then RtoC (norm2 n (ssub (transl nup U mu f) f)) else RtoC 0) /\
    lapl2 nup ndw U dirs f =[n]= sum_dirs dirs (fun mu => symd nup ndw U mu (symd nup ndw U mu f)) /\
    sdot n f (lapl2 nup ndw U dirs f) = - csum 4 (fun mu => if dirs mu then RtoC (norm2 n (symd nup ndw U mu f)) else RtoC 0) /\
    (fst (sdot n f (lapl nup ndw U dirs f)) <= 0)%R /\ (fst (sdot n f (lapl2 nup ndw U dirs f)) <= 0)%R).
Proof.
  intros n nup ndw U dirs f g L. split; [intros mu Hmu; apply (symd_anti n nup ndw L); exact Hmu|]. split; [apply (lapl_herm n nup ndw L)|]. intros HU.
  assert (P : forall h, (0 <= norm2 n h)%R) by (intros h; apply sdot_pos).
  assert (NEG : forall F, (fst (Copp (csum 4 (fun mu => if dirs mu then RtoC (norm2 n (F mu)) else RtoC 0))) <= 0)%R).
  { intros F. destruct (fst_sum 4 (fun mu => if dirs mu then RtoC (norm2 n (F mu)) else RtoC 0)) as [_ K].
    - intros mu _. destruct (dirs mu); cbn [fst snd RtoC]; [split; [reflexivity|apply P]|split; lra].
    - unfold Copp. cbn [fst]. lra. }
  pose proof (lapl_val n nup ndw L U dirs f HU) as E1. pose proof (lapl2_sq n nup ndw L U dirs f HU) as E2.
  assert (E3 : sdot n f (lapl2 nup ndw U dirs f) = - csum 4 (fun mu => if dirs mu then RtoC (norm2 n (symd nup ndw U mu f)) else RtoC 0)).
  { rewrite (sdot_ext n f f _ _ (seq_refl n f) E2), sdot_dirs_r. transitivity (csum 4 (fun mu => RtoC (-1) * (if dirs mu then RtoC (norm2 n (symd nup ndw U mu f)) else RtoC 0))).
    - apply csum_ext. intros mu Hmu. destruct (dirs mu); [|ring]. rewrite (symd_anti n nup ndw L U mu f _ Hmu). destruct (sdot_pos n (symd nup ndw U mu f)) as [Q _]. unfold norm2. rewrite RtoC_m1.
      set (z := sdot n (symd nup ndw U mu f) (symd nup ndw U mu f)) in *. destruct z as [a b]. cbn [fst snd] in *. subst b. apply injective_projections; cbn; ring.
    - rewrite StagAlg.csum_scal_l, RtoC_m1. ring. }
  split; [exact E1|]. split; [exact E2|]. split; [exact E3|]. split; [rewrite E1|rewrite E3]; apply NEG.
Qed.
Print Assumptions C98_operators.

(** C98: change of gauge *)
Theorem C98_gauge : forall n nup ndw U g dirs mu f, lattice_lx n nup ndw -> (forall x, (x < n)%nat -> unitary (g x)) -> (mu < 4)%nat ->
  transl nup (gauged_lx nup g U) mu (gauged_s g f) =[n]= gauged_s g (transl nup U mu f) /\ transl' ndw (gauged_lx nup g U) mu (gauged_s g f) =[n]= gauged_s g (transl' ndw U mu f) /\
  lapl nup ndw (gauged_lx nup g U) dirs (gauged_s g f) =[n]= gauged_s g (lapl nup ndw U dirs f) /\ lapl2 nup ndw (gauged_lx nup g U) dirs (gauged_s g f) =[n]= gauged_s g (lapl2 nup ndw U dirs f).
Proof.
  intros n nup ndw U g dirs mu f L Hg Hmu. split; [apply (T_gauge n nup ndw L U g Hg mu f Hmu)|]. split; [apply (T'_gauge n nup ndw L U g Hg mu f Hmu)|].
  split; [apply (lapl_gauge n nup ndw L U g Hg)|apply (lapl2_gauge n nup ndw L U g Hg)].
Qed.
Print Assumptions C98_gauge.

(** C99: the smearing applies the number of steps asked, also in place; no step if the number is not positive.  Only the output and the fields of service change *)
Theorem C99_run : forall n sched nup ndw conf l smear orig temp H kappa niter m, (forall l, StagSpec.order n (sched l)) -> lattice_lx n nup ndw -> NoDup [smear; temp; H] -> NoDup [orig; temp; H] ->
  let m' := gaussian_smearing sched nup ndw conf l smear orig temp H kappa niter m in
  m' smear =[n]= Nat.iter (Z.to_nat niter) (smear1 nup ndw conf kappa) (m orig) /\
  (forall a x, (a <> smear /\ a <> temp /\ a <> H) \/ (n <= x)%nat -> m' a x = m a x).
Proof. intros n sched nup ndw conf l smear orig temp H kappa niter m Hs L N1 N2. exact (gaussian_ok n sched Hs nup ndw conf L l smear orig temp H kappa niter m N1 N2). Qed.
Print Assumptions C99_run.
(** C99: with one kappa the three spatial directions have it *)
Theorem C99_iso : forall n sched nup ndw conf l smear orig temp H k niter m, (forall l, StagSpec.order n (sched l)) -> lattice_lx n nup ndw -> NoDup [smear; temp; H] -> NoDup [orig; temp; H] ->
  gaussian_smearing_iso sched nup ndw conf l smear orig temp H k niter m smear =[n]= Nat.iter (Z.to_nat niter) (smear1 nup ndw conf (fun _ => k)) (m orig).
Proof.
  intros n sched nup ndw conf l smear orig temp H k niter m Hs L N1 N2. unfold gaussian_smearing_iso.
  destruct (C99_run n sched nup ndw conf l smear orig temp H (fun mu => if Nat.eqb mu 0 then 0%R else k) niter m Hs L N1 N2) as [A _]. cbv zeta in A. rewrite A. clear A.
  induction (Z.to_nat niter) as [|j IH]; [reflexivity|].
  change (smear1 nup ndw conf (fun mu => if Nat.eqb mu 0 then 0%R else k) (Nat.iter j (smear1 nup ndw conf (fun mu => if Nat.eqb mu 0 then 0%R else k)) (m orig)) =[n]= smear1 nup ndw conf (fun _ => k) (Nat.iter j (smear1 nup ndw conf (fun _ => k)) (m orig))).
  rewrite (smear1_ext n nup ndw conf L _ _ _ IH). intros x Hx s Hs0 c Hc. unfold smear1, sum_dirs. cbn [csum Nat.eqb negb]. reflexivity.
Qed.
Print Assumptions C99_iso.

(** C99: for any number of steps the smearing is linear and hermitian, so that smearing the sink is smearing the source; it is covariant, it does not mix the times; with links in the group and
    kappa not negative it never increases the norm *)
Theorem C99_properties : forall n nup ndw U kappa k, lattice_lx n nup ndw ->
  let G := fun U f => Nat.iter k (smear1 nup ndw U kappa) f in
  (forall a f b g, G U (sadd (sscale a f) (sscale b g)) =[n]= sadd (sscale a (G U f)) (sscale b (G U g))) /\
  (forall f g, sdot n f (G U g) = sdot n (G U f) g) /\
  (forall g f, (forall x, (x < n)%nat -> unitary (g x)) -> G (gauged_lx nup g U) (gauged_s g f) =[n]= gauged_s g (G U f)) /\
  (forall (time : nat -> Z) t f g, (forall x mu, (x < n)%nat -> (0 < mu < 4)%nat -> time (nup x mu) = time x /\ time (ndw x mu) = time x) ->
    (forall x, (x < n)%nat -> time x = t -> forall s, (s < 4)%nat -> veq (f x s) (g x s)) -> forall x, (x < n)%nat -> time x = t -> forall s, (s < 4)%nat -> veq (G U f x s) (G U g x s)) /\
  (forall f, ulinks n U -> (forall mu, (0 <= kappa mu)%R) -> (norm2 n (G U f) <= norm2 n f)%R).
Proof.
  intros n nup ndw U kappa k L G. split; [|split; [|split; [|split]]].
  - intros. apply (iter_lin n nup ndw L U kappa k).
  - intros. apply (iter_herm n nup ndw L U kappa k).
  - intros g f Hg. apply (iter_gauge n nup ndw L U g Hg kappa k).
  - intros time t f g HT H. unfold G. clear G. induction k as [|j IH]; [exact H|]. apply (smear1_time n nup ndw L U kappa time t _ _ HT IH).
  - intros f HU HK. apply (iter_norm n nup ndw L U kappa k f HU HK).
Qed.
Print Assumptions C99_properties.
(** C99: the number of steps adds up *)
Theorem C99_add : forall n sched nup ndw conf l l' a b temp H kappa n1 n2 m, (forall l, StagSpec.order n (sched l)) -> lattice_lx n nup ndw -> NoDup [a; temp; H] -> NoDup [b; temp; H] -> (0 <= n1)%Z -> (0 <= n2)%Z ->
  gaussian_smearing sched nup ndw conf l' b b temp H kappa n2 (gaussian_smearing sched nup ndw conf l b a temp H kappa n1 m) b =[n]= gaussian_smearing sched nup ndw conf l b a temp H kappa (n1 + n2) m b.
Proof.
  intros n sched nup ndw conf l l' a b temp H kappa n1 n2 m Hs L Na Nb H1 H2.
  destruct (C99_run n sched nup ndw conf l b a temp H kappa n1 m Hs L Nb Na) as [A _]. cbv zeta in A.
  destruct (C99_run n sched nup ndw conf l b a temp H kappa (n1 + n2) m Hs L Nb Na) as [B _]. cbv zeta in B.
  set (m1 := gaussian_smearing _ _ _ _ _ _ _ _ _ _ n1 m) in *. destruct (C99_run n sched nup ndw conf l' b b temp H kappa n2 m1 Hs L Nb Nb) as [D _]. cbv zeta in D.
  rewrite B, D, (iter_ext n nup ndw conf L (Z.to_nat n2) kappa _ _ A). rewrite Z2Nat.inj_add by assumption. rewrite (Nat.add_comm (Z.to_nat n1)).
  clear. induction (Z.to_nat n2) as [|j IH]; [reflexivity|]. intros x Hx s Hs0 c Hc. cbn [Nat.add]. 
  change (Nat.iter (S j) (smear1 nup ndw conf kappa) (Nat.iter (Z.to_nat n1) (smear1 nup ndw conf kappa) (m a)) x s c = Nat.iter (S (j + Z.to_nat n1)) (smear1 nup ndw conf kappa) (m a) x s c).
  assert (E : forall i (f : sfield), Nat.iter i (smear1 nup ndw conf kappa) (Nat.iter (Z.to_nat n1) (smear1 nup ndw conf kappa) f) = Nat.iter (i + Z.to_nat n1) (smear1 nup ndw conf kappa) f).
  { intros i f. induction i as [|i E]; [reflexivity|]. change (smear1 nup ndw conf kappa (Nat.iter i (smear1 nup ndw conf kappa) (Nat.iter (Z.to_nat n1) (smear1 nup ndw conf kappa) f)) = smear1 nup ndw conf kappa (Nat.iter (i + Z.to_nat n1) (smear1 nup ndw conf kappa) f)). rewrite E. reflexivity. }
  rewrite (E (S j) (m a)). reflexivity.
Qed.
Print Assumptions C99_add.

(** *** Examples: a lattice of four sites in a row in the direction 1, links one: three steps with kappa 1/2 of a point source *)
Definition ex_up (x mu : nat) : nat := match mu with 1 => Nat.modulo (x + 1) 4 | _ => x end.
Definition ex_dw (x mu : nat) : nat := match mu with 1 => Nat.modulo (x + 3) 4 | _ => x end.
Definition ex_one (_ _ : nat) : cmat := mid.
Example C98_ex_lattice : lattice_lx 4 ex_up ex_dw /\ ulinks 4 ex_one /\ StagSpec.order 4 [2; 0; 3; 1]%nat.
Proof.
  split; [|split].
  - intros x mu Hx Hmu. destruct mu as [|[|mu]]; [|destruct x as [|[|[|[|]]]]; cbn; lia|]; unfold ex_up, ex_dw; repeat split; lia.
  - intros x mu _ _. apply unitary_1.
  - split; [repeat (constructor; [cbn; lia|]); constructor|]. intros k. cbn. lia.
Qed.
Definition ex_src : sfield := fun x s c => if (Nat.eqb x 0 && Nat.eqb s 0 && Nat.eqb c 0)%bool then RtoC 1 else RtoC 0.
Definition ex_kappa (mu : nat) : R := match mu with 1 => 1 / 2 | _ => 0 end.
Definition ex_val (x : nat) : C := match x with 0 => RtoC (1 / 2) | 1 | 3 => RtoC (1 / 4) | _ => RtoC 0 end.
(** one step in place, in that order of the sites: half of the source stays and a quarter goes to each neighbour *)
Example C99_ex : forall m, m 0%nat = ex_src -> forall x, (x < 4)%nat ->
  gaussian_smearing (fun _ => [2; 0; 3; 1]%nat) ex_up ex_dw ex_one 0 0 0 1 2 ex_kappa 1 m 0%nat x 0%nat 0%nat = ex_val x.
Proof.
  intros m E x Hx. destruct C98_ex_lattice as (L & _ & O).
  destruct (C99_run 4 (fun _ => [2; 0; 3; 1]%nat) ex_up ex_dw ex_one 0%nat 0%nat 0%nat 1%nat 2%nat ex_kappa 1 m (fun _ => O) L) as [A _]; [repeat (constructor; [cbn; lia|]); constructor|repeat (constructor; [cbn; lia|]); constructor|].
  cbv zeta in A. rewrite (A x Hx 0%nat ltac:(lia) 0%nat ltac:(lia)), E. change (Nat.iter (Z.to_nat 1) (smear1 ex_up ex_dw ex_one ex_kappa) ex_src) with (smear1 ex_up ex_dw ex_one ex_kappa ex_src).
  unfold smear1, sum_dirs, sscale, sadd, transl, transl', mvec, ex_one, mid, dag. 
  destruct x as [|[|[|[|]]]]; [..|lia]; cbn [csum Nat.eqb negb ex_up ex_dw ex_kappa Nat.modulo Nat.divmod Nat.add fst snd Nat.sub ex_src andb ex_val]; unfold ex_src; cbn; apply injective_projections; cbn; lra.
Qed.
