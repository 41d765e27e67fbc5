(** What a reduction is: all the values combined, in order. *)
From Verif Require Import Base ReduceModel.

(** combination of a list, None when empty *)
Fixpoint total {V} (op : V -> V -> V) (l : list V) : option V :=
  match l with
  | [] => None
  | x :: r => match total op r with None => Some x | Some y => Some (op x y) end
  end.

Definition associative {V} (op : V -> V -> V) := forall a b c, op a (op b c) = op (op a b) c.
Definition commutative {V} (op : V -> V -> V) := forall a b, op a b = op b a.

(** different (site, component) have different addresses *)
Definition distinct_addresses (ix : Z -> Z -> Z) (nsites ndeg : Z) :=
  forall s d s' d', 0 <= s < nsites -> 0 <= s' < nsites -> 0 <= d < ndeg -> 0 <= d' < ndeg ->
    ix s d = ix s' d' -> s = s' /\ d = d'.

(** the elements a rank contributes to slice s *)
Definition slice_elems {V} (ix : Z -> Z -> Z) (c : @contribution V) (s d : Z) : list V :=
  if (loc_offset c <=? s) && (s <? loc_offset c + nloc_slices c)
  then map (fun i => buf c (ix (i + nloc c / nloc_slices c * (s - loc_offset c)) d)) (seqZ (nloc c / nloc_slices c))
  else [].

