(** Specifications for the Field object, on the history of the operations only. *)
From Verif Require Import Base GeometryModel HaloModel FieldModel.
Open Scope Z_scope.

(** references alive after a history *)
Definition ref_change {A} (o : @op A) : Z := match o with GetRef _ => 1 | DropRef _ => -1 | _ => 0 end.
Definition live {A} (h : list (@op A)) : Z := fold_right Z.add 0 (map ref_change h).

(** the operation o, done after the history h, tells the field that its content changed: explicit invalidation, or drop of the
    last reference, a writable one *)
Definition declares {A} (h : list (@op A)) (o : @op A) : Prop :=
  match o with InvalidateHalo => True | DropRef true => live (h ++ [o]) = 0 | _ => False end.

(** the operations changing the bulk of the field *)
Definition changes {A} (o : @op A) : Prop := match o with Write _ | CudaCopy _ => True | _ => False end.
Definition updates {A} (o : @op A) : Prop := match o with UpdateHalo _ _ | UpdateEdges _ _ => True | _ => False end.

(** between a change and the next update, the change is declared *)
Definition disciplined {A} (h : list (@op A)) : Prop :=
  forall h1 w h2 u h3, h = h1 ++ w :: h2 ++ u :: h3 -> changes w -> updates u ->
  exists a d b, h2 = a ++ d :: b /\ declares (h1 ++ w :: a) d.

(** the orders in which the loops building the surface tables run: any visiting all the local sites *)
Definition good_sched (g : grid) (sched : Z -> list Z) : Prop :=
  forall q, 0 <= q < nranks g -> forall i, In i (sched q) <-> 0 <= i < locVol g.
Definition good_scheds {A} (g : grid) (h : list (@op A)) : Prop :=
  forall o, In o h -> match o with UpdateHalo _ s | UpdateEdges _ s => good_sched g s | _ => True end.

(** every site of the region [lo,hi) of every rank holds the value of the site with the same global coordinates on the rank owning it *)
Definition fresh {A} (g : grid) (d : Z -> table A) (lo hi : Z) : Prop :=
  forall r i, 0 <= r < nranks g -> lo <= i < hi ->
  exists gc r' i', glbCoordOfLoclx (rank_labels g r) i = Some gc /\ getLoclxAndRankOfCoords g gc = (r', i') /\
    0 <= r' < nranks g /\ 0 <= i' < locVol g /\ d r i = d r' i'.
Definition halo_fresh {A} g (d : Z -> table A) := fresh g d (locVol g) (locVol g + bordVol g).
Definition edges_fresh {A} g (d : Z -> table A) := fresh g d (locVol g + bordVol g) (locVol g + bordVol g + edgeVol g).
