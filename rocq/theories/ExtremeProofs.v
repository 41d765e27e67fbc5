From Coq Require Import List Bool ZArith Lia.
From Verif Require Import ExtremeModel ExtremeSpec.
Import ListNotations.

Section P.
  Variable T : Type.
  Variable ltb : T -> T -> bool.
  Variable add sub : T -> T -> T.
  Variable E : Extreme.
  Hypothesis ST : strict_total ltb.

  Definition vinv (v : vwe T) (h : list T) : Prop :=
    (exists r, h = vval v :: r) /\ is_extreme ltb E (vextr v) h.

  Lemma update_inv : forall x e h,
    is_extreme ltb E e h ->
    vinv (updateExtreme ltb E (mkVwe x e)) (x :: h).
  Proof.
    intros x e h [Hin Hle]. destruct ST as (Irr & Tr & Tot).
    unfold vinv, is_extreme, updateExtreme. cbn [vval vextr].
    destruct E; cbn [vval vextr].
    - destruct (ltb x e) eqn:L; split; cbn [vval vextr]; eauto.
      + split; [now left|]. intros y [<-|Hy]; [apply Irr|].
        specialize (Hle y Hy). cbn in Hle.
        destruct (ltb y x) eqn:Q; [|easy]. now rewrite (Tr _ _ _ Q L) in Hle.
      + split; [now right|]. intros y [<-|Hy]; auto.
    - destruct (ltb e x) eqn:L; split; cbn [vval vextr]; eauto.
      + split; [now left|]. intros y [<-|Hy]; [apply Irr|].
        specialize (Hle y Hy). cbn in Hle.
        destruct (ltb x y) eqn:Q; [|easy]. now rewrite (Tr _ _ _ L Q) in Hle.
      + split; [now right|]. intros y [<-|Hy]; auto.
  Qed.

  Lemma step_inv : forall v h o, (forall w, o <> OpCopy w) ->
    vinv v h -> vinv (vstep ltb add sub E v o) (held_step add sub h o).
  Proof.
    intros v h o NC [(r & ->) HE]. destruct o; cbn [vstep held_step].
    - apply update_inv; auto.
    - apply update_inv; auto.
    - apply update_inv; auto.
    - split; cbn; eauto. split; [now left|]. intros y [<-|[]].
      destruct ST as (Irr & _). destruct E; apply Irr.
    - now destruct (NC o).
  Qed.

  Lemma run_inv : forall ops v h, no_copy ops -> vinv v h ->
    vinv (fold_left (vstep ltb add sub E) ops v) (fold_left (held_step add sub) ops h).
  Proof.
    induction ops as [|o ops IH]; intros v h NC I; cbn [fold_left]; auto.
    apply IH.
    - intros w Hw. apply (NC w). now right.
    - apply step_inv; auto. intros w ->. apply (NC w). now left.
  Qed.

  Lemma extreme_correct : forall init ops, no_copy ops ->
    vval (vrun ltb add sub E init ops) = current add sub init ops /\
    is_extreme ltb E (vextr (vrun ltb add sub E init ops)) (held add sub init ops).
  Proof.
    intros init ops NC.
    assert (I : vinv (vreset init) [init]).
    { split; cbn; eauto. split; [now left|]. intros y [<-|[]].
      destruct ST as (Irr & _). destruct E; apply Irr. }
    destruct (run_inv ops _ _ NC I) as [(r & Hr) HE].
    split; [|exact HE]. unfold current, held. rewrite Hr. reflexivity.
  Qed.
End P.

(* The order of the integers *)
Lemma Zltb_strict_total : strict_total Z.ltb.
Proof. repeat split; intros; rewrite ?Z.ltb_lt, ?Z.ltb_ge in *; lia. Qed.
