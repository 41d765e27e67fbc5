(* Model of src/new_types/value_with_extreme.hpp (class ValWithExtreme).

   The template is kept generic: T is any type with the operations that the
   class calls on it ([<], [+=], [-=]).  [a>b] is modelled as [b<a], as for
   every arithmetic type. *)
From Coq Require Import List Bool ZArith Lia.
Import ListNotations.

(* value_with_extreme.hpp: 9 *)
Inductive Extreme := MINIMUM | MAXIMUM.

Section Extreme.
  Variable T : Type.
  Variable ltb : T -> T -> bool.
  Variable add sub : T -> T -> T.

  (* value_with_extreme.hpp: 17-20, the two members *)
  Record vwe := mkVwe { vval : T; vextr : T }.

  (* value_with_extreme.hpp: 23-41, updateExtreme *)
  Definition updateExtreme (E : Extreme) (v : vwe) : vwe :=
    let is := match E with
              | MINIMUM => ltb (vval v) (vextr v)
              | MAXIMUM => ltb (vextr v) (vval v)
              end in
    if is then mkVwe (vval v) (vval v) else v.

  (* value_with_extreme.hpp: 52-64 and 67-71, reset and constructor *)
  Definition vreset (init : T) : vwe := mkVwe init init.

  (* value_with_extreme.hpp: 79-95, the three assignment operators; [OpCopy] is
     the implicitly declared copy assignment, which is preferred to the template
     [operator=] when the right hand side is another ValWithExtreme of the same
     type: it copies both members. *)
  Inductive vop :=
  | OpAdd (x : T)
  | OpSub (x : T)
  | OpSet (x : T)
  | OpReset (x : T)
  | OpCopy (o : vwe).

  Definition vstep (E : Extreme) (v : vwe) (o : vop) : vwe :=
    match o with
    | OpAdd x => updateExtreme E (mkVwe (add (vval v) x) (vextr v))
    | OpSub x => updateExtreme E (mkVwe (sub (vval v) x) (vextr v))
    | OpSet x => updateExtreme E (mkVwe x (vextr v))
    | OpReset x => vreset x
    | OpCopy o => o
    end.

  Definition vrun (E : Extreme) (init : T) (ops : list vop) : vwe :=
    fold_left (vstep E) ops (vreset init).
End Extreme.

Arguments mkVwe {T}.
Arguments vval {T}.
Arguments vextr {T}.
Arguments OpAdd {T}.
Arguments OpSub {T}.
Arguments OpSet {T}.
Arguments OpReset {T}.
Arguments OpCopy {T}.
Arguments updateExtreme {T}.
Arguments vreset {T}.
Arguments vstep {T}.
Arguments vrun {T}.
