(* What a user expects from a value which remembers its extreme: written from
   the list of the values held, without the class. *)
From Coq Require Import List.
From Verif Require Import ExtremeModel.
Import ListNotations.

Section Spec.
  Variable T : Type.
  Variable add sub : T -> T -> T.

  (* The values held since the last reset, the latest first.  Copying another
     object in makes the value of that object the current one. *)
  Definition held_step (h : list T) (o : vop T) : list T :=
    match o, h with
    | OpAdd x, v :: _ => add v x :: h
    | OpSub x, v :: _ => sub v x :: h
    | OpSet x, _ => x :: h
    | OpReset x, _ => [x]
    | OpCopy o, _ => vval o :: h
    | _, [] => h
    end.

  Definition held (init : T) (ops : list (vop T)) : list T :=
    fold_left held_step ops [init].

  Definition current (init : T) (ops : list (vop T)) : T := hd init (held init ops).

  Definition no_copy (ops : list (vop T)) : Prop :=
    forall o, ~ In (OpCopy o) ops.
End Spec.
Arguments held {T}.
Arguments held_step {T}.
Arguments current {T}.
Arguments no_copy {T}.

(* [ltb] is a strict total order *)
Definition strict_total {T} (ltb : T -> T -> bool) : Prop :=
  (forall x, ltb x x = false) /\
  (forall x y z, ltb x y = true -> ltb y z = true -> ltb x z = true) /\
  (forall x y, ltb x y = false -> ltb y x = false -> x = y).

(* [e] is the extreme (minimum or maximum) of the list *)
Definition is_extreme {T} (ltb : T -> T -> bool) (E : Extreme) (e : T) (l : list T) : Prop :=
  In e l /\
  forall x, In x l ->
    match E with
    | MINIMUM => ltb x e = false
    | MAXIMUM => ltb e x = false
    end.
