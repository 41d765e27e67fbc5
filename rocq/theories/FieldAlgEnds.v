(** The linear algebra of the fields always produces a result. *)
From Coq Require Import Reals Lia.
From Verif Require Import Base ParModel ParSpec ParProofs ReduceModel ReduceSpec ReduceProofs ReduceMain FieldAlgModel FieldAlgSpec FieldAlgProofs.
Open Scope Z_scope.

Lemma Forall2_exists {A B} (P : A -> B -> Prop) l : (forall x, exists y, P x y) -> exists l', Forall2 P l l'.
Proof.
  intros H. induction l as [|x l [l' IH]]; [exists []; constructor|]. destruct (H x) as [y Hy]. exists (y :: l'). now constructor.
Qed.
Lemma red_exists {V} (op : V -> V -> V) l : l <> [] -> exists v, red_of op l v.
Proof.
  induction l as [|x l IH]; [easy|]. intros _. destruct l as [|y l]; [exists x; constructor|].
  destruct IH as [v Hv]; [easy|]. exists (op x v). apply (red_two op [x] (y :: l)); auto. constructor.
Qed.
Lemma PAR_exists {V} b lo hi (body : Z -> prog V) m : exists m', PAR b lo hi body m m'.
Proof. unfold PAR. eexists. apply par_exists. Qed.
Section E.
Context (ix : Z -> Z -> Z) (nDeg nSites : Z) (bk : Z -> backend).
Lemma scalar_prod_ends p q b tmp ranks : ranks <> [] -> exists ranks' out, scalar_prod ix nDeg nSites bk p q b tmp ranks ranks' out.
Proof.
  intros H.
  destruct (Forall2_exists (fun m m1 => PAR (bk nSites) 0 nSites (fun s => prod_site ix p q b s (seqZ nDeg) 0%R) m m1) ranks) as [ms1 H1]; [intros; apply PAR_exists|].
  destruct (Forall2_exists (fun m m1 => PAR (bk nSites) 0 nSites (copy_site tmp b) m m1) ms1) as [ms2 H2]; [intros; apply PAR_exists|].
  destruct (Forall2_exists (fun m2 m' => reduce_loop bk Rplus (fun s _ => tmp + s) 1 1 nSites nSites m2 m') ms2) as [ms3 H3]; [intros; apply loop_exists|].
  destruct (red_exists Rplus (map (fun m' : mem R => m' tmp) ms3)) as [out Ho].
  { destruct ms3; [|easy]. inversion H3; subst. inversion H2; subst. inversion H1; subst. easy. }
  exists ms3, out, ms1, ms2. auto.
Qed.
Lemma normalize_ends p b tmp newNorm ranks : ranks <> [] -> exists ranks' ret, normalize ix nDeg nSites bk p b tmp newNorm ranks ranks' ret.
Proof.
  intros H. destruct (scalar_prod_ends p p b tmp ranks H) as (ms & n2 & H1).
  destruct (Forall2_exists (mul_assign ix nDeg nSites bk p (newNorm / sqrt n2)%R) ms) as [ms' H2]; [intros; apply PAR_exists|].
  exists ms', (1 / (newNorm / sqrt n2))%R, ms, n2. auto.
Qed.
End E.
