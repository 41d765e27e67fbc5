(** Products by elements of the SU(2) subgroups. *)
From Coq Require Import Reals Lra Lia List Bool FunctionalExtensionality.
From Coquelicot Require Import Complex.
From Verif Require Import CplxModel CplxSpec CplxProofs CplxStores MatModel MatSpec MatProofs MatRun MatProofs2 MatProofs3 MatProofs4 MatAlg MatUnit MatUnit2 MatAlgoModel.
Import ListNotations.
Open Scope C_scope.
Set Bullet Behavior "Strict Subproofs".

(** cells of the local variables *)
Lemma su2_prodassign_mod_ok md s a row m : su2_apart a md row ->
  let i1 := fst (su3_sub_gr_indices s) in let i2 := snd (su3_sub_gr_indices s) in
  let m' := su2_prodassign_su3_mod md s a row m in
  (forall k, (k < 3)%nat -> m' a@[i1]@[k] = m md@[0%nat]@[0%nat] * m a@[i1]@[k] + m md@[0%nat]@[1%nat] * m a@[i2]@[k]) /\
  (forall k, (k < 3)%nat -> m' a@[i2]@[k] = m md@[1%nat]@[0%nat] * m a@[i1]@[k] + m md@[1%nat]@[1%nat] * m a@[i2]@[k]) /\
  (forall p, (forall i, p <> row@[i]) -> (forall k, (k < 3)%nat -> p <> a@[i1]@[k] /\ p <> a@[i2]@[k]) -> m' p = m p).
Proof.
  intros (N1 & N2 & N3). unfold su2_prodassign_su3_mod, su3_sub_gr_indices. destruct s as [|[|s]]; cbv beta iota zeta; cbn [fst snd].
  all: split; [|split].
  all: try (intros k Hk; idx k; run; ring).
  all: intros p P1 P2; pose proof (P2 0%nat ltac:(lia)) as [Q1 Q2]; pose proof (P2 1%nat ltac:(lia)) as [Q3 Q4];
    pose proof (P2 2%nat ltac:(lia)) as [Q5 Q6]; pose proof (P1 0%nat) as Q7; pose proof (P1 1%nat) as Q8; clear P1 P2 N1 N2 N3; frame0.
Qed.
