(** Loops whose iterations write in disjoint regions and do not read what the others write. *)
From Coq Require Import List.
From Coquelicot Require Import Complex.
From Verif Require Import CplxModel.
Import ListNotations.

Section Par.
Context {I : Type} (body : I -> mem -> mem) (reg : I -> path -> Prop) (loc : path -> Prop) (v : I -> mem -> path -> C).
Definition run_list (ks : list I) (m : mem) : mem := fold_left (fun m k => body k m) ks m.
Lemma par_loop (ks : list I) : NoDup ks ->
  (forall k, In k ks -> forall m q, reg k q -> body k m q = v k m q) ->
  (forall k, In k ks -> forall m q, ~ reg k q -> ~ loc q -> body k m q = m q) ->
  (forall k k' q, In k ks -> In k' ks -> k <> k' -> reg k q -> ~ reg k' q) ->
  (forall k q, In k ks -> reg k q -> ~ loc q) ->
  (forall k m m' q, In k ks -> reg k q -> (forall r, (forall k', In k' ks -> k' <> k -> ~ reg k' r) -> ~ loc r -> m r = m' r) -> v k m q = v k m' q) ->
  forall m, (forall k q, In k ks -> reg k q -> run_list ks m q = v k m q) /\
    (forall q, (forall k, In k ks -> ~ reg k q) -> ~ loc q -> run_list ks m q = m q).
Proof.
  intros ND Hv Hf Hd Hl He.
  (* for every part of the list *)
  assert (G : forall l, NoDup l -> incl l ks -> forall m, (forall k q, In k l -> reg k q -> run_list l m q = v k m q) /\
    (forall q, (forall k, In k l -> ~ reg k q) -> ~ loc q -> run_list l m q = m q)).
  { induction l as [|k0 l IH]; intros N Inc m; [split; [intros ? ? []|reflexivity]|].
    apply NoDup_cons_iff in N. destruct N as [N0 N].
    assert (I0 : In k0 ks) by (apply Inc; now left). assert (Il : incl l ks) by (intros x Hx; apply Inc; now right).
    destruct (IH N Il (body k0 m)) as [I1 I2]. unfold run_list in *. cbn [fold_left]. split.
    - intros k q [<-|Hk] Hq.
      + rewrite I2; [apply Hv; assumption| |apply (Hl k0); assumption].
        intros k Hk. apply (Hd k0 k q); auto. intros ->. contradiction.
      + rewrite (I1 k q Hk Hq). apply (He k); [apply Il; exact Hk|exact Hq|].
        intros r Hr Lr. apply Hf; [exact I0| |exact Lr]. apply Hr; [exact I0|]. intros ->. contradiction.
    - intros q Hq Lq. rewrite I2; [|intros k Hk; apply Hq; now right|exact Lq]. apply Hf; [exact I0| |exact Lq]. apply Hq. now left. }
  intros m. apply G; [exact ND|apply incl_refl].
Qed.
End Par.
