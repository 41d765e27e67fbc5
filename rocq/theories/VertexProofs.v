(** C100: insertion of a vector vertex *)
From Coq Require Import Reals Lra Lia List Arith ZArith Setoid.
From Coquelicot Require Import Complex.
From Verif Require Import MatSpec MatAlg DiracModel DiracSpec DiracProofs TmModel TmSpec TmProofs TmAlg CovModel CovSpec CovProofs VertexModel VertexSpec.
From Verif Require StagSpec.
Import ListNotations.
Open Scope C_scope.
Set Bullet Behavior "Strict Subproofs".

Lemma dirac_v d (v : spincolor) s c : valid d -> (s < 4)%nat -> unsafe_dirac_prod_spincolor d v s c = spin (den d) v s c.
Proof.
  intros V Hs. unfold unsafe_dirac_prod_spincolor, spin, den. rewrite <- (csum4_pick (pos d s) (fun j => v j c * entr d s)) by (apply V; exact Hs).
  apply csum_ext. intros j _. destruct (Nat.eqb _ _); ring.
Qed.
Lemma dagv_v (U : su3) (c : color) ic : unsafe_su3_dag_prod_color U c ic = mvec (dag U) c ic.
Proof. unfold unsafe_su3_dag_prod_color, mvec, dag. cbn [csum]. ring. Qed.
Lemma gam_den junk mu : (mu < 4)%nat -> deq (den (base_gamma junk (iGammaOfMu mu))) (gam mu).
Proof. intros H. assert (K : (iGammaOfMu mu < 19)%nat) by (destruct mu as [|[|[|[|]]]]; cbn; lia). unfold gam. destruct mu as [|[|[|[|]]]]; [..|lia]; intros i j _ _; reflexivity. Qed.
Lemma gamma_valid' junk mu : (mu < 4)%nat -> valid (base_gamma junk (iGammaOfMu mu)).
Proof. intros H. apply gamma_valid. destruct mu as [|[|[|[|]]]]; cbn; lia. Qed.
Lemma spin_ext G G' v s c : deq G G' -> (s < 4)%nat -> spin G v s c = spin G' v s c.
Proof. intros H Hs. unfold spin. apply csum_ext. intros j Hj. rewrite (H s j Hs Hj). reflexivity. Qed.

Section S.
Variables (n : nat) (sched : nat -> list nat).
Hypothesis Hs : forall l, StagSpec.order n (sched l).
Variables (nup ndw : nat -> nat -> nat) (conf : nat -> nat -> su3) (junk : dirac_matr) (time : nat -> Z).

(** one direction *)
Definition vdir (a b : C) (G : dmat) (A : nat -> nat -> C) (f : sfield) (x mu s c : nat) : C :=
  a * A x mu * spin (dsub G (gam mu)) (fun t => mvec (conf x mu) (f (nup x mu) t)) s c
  + b * A (ndw x mu) mu * spin (dadd G (gam mu)) (fun t => mvec (dag (conf (ndw x mu) mu)) (f (ndw x mu) t)) s c.
Definition fw0 (a : C) (A : nat -> nat -> C) (m : smem) inp x mu := spincolor_prodassign_complex (spincolor_prodassign_complex (unsafe_su3_prod_spincolor (conf x mu) (m inp (nup x mu))) a) (A x mu).
Definition bw0 (b : C) (A : nat -> nat -> C) (m : smem) inp x mu := spincolor_prodassign_complex (spincolor_prodassign_complex (unsafe_su3_dag_prod_spincolor (conf (ndw x mu) mu) (m inp (ndw x mu))) b) (A (ndw x mu) mu).
Lemma vdir_ok a b GAMMA A (m : smem) inp x mu s c (o : C) : valid GAMMA -> (mu < 4)%nat -> (s < 4)%nat ->
  (o + unsafe_dirac_prod_spincolor GAMMA (spincolor_summ (bw0 b A m inp x mu) (fw0 a A m inp x mu)) s c)
    + unsafe_dirac_prod_spincolor (base_gamma junk (iGammaOfMu mu)) (spincolor_subt (bw0 b A m inp x mu) (fw0 a A m inp x mu)) s c
  = o + vdir a b (den GAMMA) A (m inp) x mu s c.
Proof.
  intros V Hmu Hs0. rewrite (dirac_v GAMMA), (dirac_v (base_gamma junk (iGammaOfMu mu))) by (try assumption; apply gamma_valid'; assumption).
  rewrite (spin_ext _ _ _ s c (gam_den junk mu Hmu) Hs0). unfold vdir.
  assert (F : forall i j, fw0 a A m inp x mu i j = a * A x mu * mvec (conf x mu) (m inp (nup x mu) i) j).
  { intros i j. unfold fw0, spincolor_prodassign_complex, unsafe_su3_prod_spincolor. rewrite mulv_v. ring. }
  assert (B : forall i j, bw0 b A m inp x mu i j = b * A (ndw x mu) mu * mvec (dag (conf (ndw x mu) mu)) (m inp (ndw x mu) i) j).
  { intros i j. unfold bw0, spincolor_prodassign_complex, unsafe_su3_dag_prod_spincolor. rewrite dagv_v. ring. }
  unfold spin, spincolor_summ, spincolor_subt, color_summ, color_subt, dsub, dadd. cbn [csum]. rewrite !F, !B. ring.
Qed.
Lemma vertex_ok l out inp a b GAMMA A t : out <> inp -> valid GAMMA ->
  sets_obj n (insert_vector_vertex sched nup ndw conf junk time l out inp a b GAMMA A t) out (fun m => at_time time t (vertex nup ndw conf a b (den GAMMA) A (m inp))).
Proof.
  intros Hd V m. assert (Hd' : inp <> out) by congruence. unfold insert_vector_vertex. cbv zeta. destruct (reset_ok n sched Hs l out m) as [R1 R2]. set (m0 := field_reset sched l out m) in *.
  match goal with |- context [PARs (sched (l + 1)%nat) ?b m0] => set (body := b) end.
  set (val := fun (X : nat) (m : smem) => fun s c => if ((t =? -1)%Z || (time X =? t)%Z)%bool then m out X s c + vertex nup ndw conf a b (den GAMMA) A (m inp) X s c else m out X s c).
  assert (AA : sets_obj n (PARs (sched (l + 1)%nat) body) out (fun m X => val X m)).
  { apply (pars n (sched (l + 1)%nat) body out val (Hs _)).
    - intros X k a0 x Hx. unfold body. destruct (_ || _)%bool; [|reflexivity]. cbn [seq fold_left]. rewrite !wr_other by exact Hx. reflexivity.
    - intros X HX k s Hs0 i Hi. unfold body, val. destruct (_ || _)%bool; [|reflexivity]. cbn [seq fold_left]. rewrite !wr_same. rewrite !(wr_other out X _ _ inp) by tauto.
      repeat match goal with |- context [spincolor_summ ?p ?q s i] => change (spincolor_summ p q s i) with (p s i + q s i) end.
      repeat match goal with |- context [spincolor_prodassign_complex (spincolor_prodassign_complex (unsafe_su3_prod_spincolor (conf X ?mu) (k inp ?y)) a) (A X ?mu)] =>
        change (spincolor_prodassign_complex (spincolor_prodassign_complex (unsafe_su3_prod_spincolor (conf X mu) (k inp y)) a) (A X mu)) with (fw0 a A k inp X mu) end.
      repeat match goal with |- context [spincolor_prodassign_complex (spincolor_prodassign_complex (unsafe_su3_dag_prod_spincolor (conf ?z ?mu) (k inp ?z)) b) (A ?z ?mu)] =>
        change (spincolor_prodassign_complex (spincolor_prodassign_complex (unsafe_su3_dag_prod_spincolor (conf z mu) (k inp z)) b) (A z mu)) with (bw0 b A k inp X mu) end.
      rewrite !vdir_ok by (assumption || lia). unfold vertex. cbn [csum]. unfold vdir. ring.
    - intros X HX k k' H1 H2 s Hs0 i Hi. unfold val. rewrite H2. destruct (_ || _)%bool; [|reflexivity]. unfold vertex. f_equal. apply csum_ext. intros mu Hmu.
      rewrite !(H1 inp) by congruence. reflexivity. }
  destruct (AA m0) as [A1 A2]. split.
  - intros x Hx s Hs0 c Hc. rewrite (A1 x Hx s Hs0 c Hc). unfold val, at_time. rewrite (R1 x Hx s Hs0 c Hc). unfold szero. destruct (_ || _)%bool; [|reflexivity].
    unfold vertex. rewrite Cplus_0_l. apply csum_ext. intros mu Hmu. rewrite !(R2 inp) by tauto. reflexivity.
  - intros a0 x Hx. rewrite A2, R2 by tauto. reflexivity.
Qed.
End S.
Lemma vertex_ext n nup ndw U a b G G' A A' f : lattice_lx n nup ndw -> deq G G' -> (forall x mu, A x mu = A' x mu) -> vertex nup ndw U a b G A f =[n]= vertex nup ndw U a b G' A' f.
Proof.
  intros L HG HA x Hx s Hs c Hc. unfold vertex. apply csum_ext. intros mu Hmu. rewrite !HA. f_equal; f_equal; apply spin_ext; try exact Hs; intros i j Hi Hj; unfold dsub, dadd; rewrite (HG i j Hi Hj); reflexivity.
Qed.
Lemma at_ext n time t f g : f =[n]= g -> at_time time t f =[n]= at_time time t g.
Proof. intros H x Hx s Hs c Hc. unfold at_time. destruct (_ || _)%bool; [|reflexivity]. apply H; assumption. Qed.
Lemma sets_ext n o out v v' : sets_obj n o out v -> (forall m, v m =[n]= v' m) -> sets_obj n o out v'.
Proof. intros H E m. destruct (H m) as [A B]. split; [rewrite A; apply E|exact B]. Qed.
Lemma id_den junk : valid (base_gamma junk 0) /\ deq (den (base_gamma junk 0)) did.
Proof. split; [apply gamma_valid; lia|]. intros i j Hi Hj. apply (gamma_id junk i j Hi Hj). Qed.
Lemma tm_den junk r : (r < 2)%nat -> valid (tm_GAMMA junk r) /\ deq (den (tm_GAMMA junk r)) (twisted r).
Proof.
  intros Hr. split.
  - intros i Hi. unfold tm_GAMMA, dirac_prod_idouble. rewrite rows_pos by exact Hi. cbn [fst]. apply gamma_valid; [lia|exact Hi].
  - intros i j Hi Hj. unfold tm_GAMMA. rewrite (den_prod_idouble junk (base_gamma junk 5) _ i j Hi Hj). unfold twisted, dscale, gam5. change (den (base_gamma zero_matr 5) i j) with (den (base_gamma junk 5) i j). f_equal.
    unfold tau3_tab. destruct r as [|[|]]; [..|lia]; cbn [nth Nat.eqb]; apply injective_projections; cbn; ring.
Qed.
