(** Histories after which the halo is stale. *)
From Verif Require Import Base GeometryModel GeometrySpec HaloModel FieldModel FieldSpec FieldProofs.
Open Scope Z_scope.

(** 2x2x2x4 lattice on two ranks *)
Definition sg : grid := mkGrid [2;2;2;4] [1;1;1;2].
Definition ss : Z -> list Z := fun _ => seqZ (locVol sg).
Definition zero_data : Z -> table Z := fun _ _ => Some 0.
Definition put_one : Z -> table Z -> table Z := fun _ _ _ => Some 1.

(** the border of rank 0 still holds the old value, all the bulk the new one *)
Definition stale_check (o : option (@field Z)) : bool :=
  match o with
  | Some s => (match content s 0 16 with Some 0 => true | _ => false end) &&
      forallb (fun p => match content s (fst p) (snd p) with Some 1 => true | _ => false end) (list_prod (seqZ (nranks sg)) (seqZ (locVol sg)))
  | None => false
  end.
Lemma stale_ok o : stale_check o = true -> exists s, o = Some s /\ ~ halo_fresh sg (content s).
Proof.
  intros H. destruct o as [s|]; [|discriminate]. exists s. split; auto. intros F. cbn [stale_check] in H. apply andb_true_iff in H. destruct H as [H1 H2].
  destruct (F 0 16) as (gc & r' & i' & _ & _ & Hr & Hi & E); [vm_compute; split; [discriminate|reflexivity]|vm_compute; split; [discriminate|reflexivity]|].
  rewrite forallb_forall in H2. specialize (H2 (r', i')). cbn [fst snd] in H2. rewrite <- E in H2.
  destruct (content s 0 16) as [[]|]; try discriminate. assert (false = true); [|discriminate]. apply H2. apply in_prod_iff. split; now apply in_seqZ.
Qed.
Definition bad_loop : list (@op Z) := [UpdateHalo false ss] ++ par_loop [false; true] 0 (Some put_one) ++ [UpdateHalo false ss].
Definition bad_kept : list (@op Z) := [UpdateHalo false ss; GetRef false] ++ par_loop [true] 0 (Some put_one) ++ [UpdateHalo false ss; DropRef false].
Definition bad_memcpy : list (@op Z) := [UpdateHalo false ss] ++ [CudaCopy (fun _ i => if i <? 16 then Some 1 else Some 0)] ++ [UpdateHalo false ss].
Lemma bad_loop_stale : exists s, run sg (new_field WITH_HALO zero_data) bad_loop = Some s /\ ~ halo_fresh sg (content s).
Proof. apply stale_ok. vm_compute. reflexivity. Qed.
Lemma bad_kept_stale : exists s, run sg (new_field WITH_HALO zero_data) bad_kept = Some s /\ ~ halo_fresh sg (content s).
Proof. apply stale_ok. vm_compute. reflexivity. Qed.
Lemma bad_memcpy_stale : exists s, run sg (new_field WITH_HALO zero_data) bad_memcpy = Some s /\ ~ halo_fresh sg (content s).
Proof. apply stale_ok. vm_compute. reflexivity. Qed.
Lemma good_ss : good_sched sg ss.
Proof. intros q _ i. unfold ss. apply in_seqZ. Qed.
