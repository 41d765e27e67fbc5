(** More of geometry_lx.{cpp,hpp}, base/init.cpp and gauge_sweeper.cpp: combination of sites,
    bulk/surface lists, boxes, mirrored coordinates, staggered phases. *)
From Verif Require Import Base GeometryModel.

(** geometry_lx.cpp:111-127  glblxOfComb.  The loop [while(co<0) co+=glbSize; co%=glbSize]
    is written as the modulo (glbSize>0).  None: an entry of the table was never written. *)
Definition glblxOfComb (g : grid) (t : labels) (b wb c wc : Z) : option Z :=
  match glbCoordOfLoclx t b, glbCoordOfLoclx t c with
  | Some gb, Some gc =>
      Some (glblxOfCoord g
              (map (fun mu => (gb.[mu] * wb + gc.[mu] * wc) mod (glbSize g).[mu]) dirs))
  | _, _ => None
  end.
(** geometry_lx.cpp:145-160 *)
Definition glblxOfDiff g t b c := glblxOfComb g t b 1 c (-1).
Definition glblxOfSum g t b c := glblxOfComb g t b 1 c 1.
Definition glblxOpp g t b := glblxOfDiff g t 0 b.

(** init.cpp:640-655 *)
Definition bulkVol (g : grid) : Z :=
  fold_left (fun a mu => a * (if isDirParallel g mu then (locSize g).[mu] - 2 else (locSize g).[mu])) dirs 1.
Definition nonBwSurfVol (g : grid) : Z :=
  fold_left (fun a mu => a * (if isDirParallel g mu then (locSize g).[mu] - 1 else (locSize g).[mu])) dirs 1.
Definition nonFwSurfVol (g : grid) : Z := nonBwSurfVol g.
Definition fwSurfVol (g : grid) : Z := locVol g - nonBwSurfVol g.
Definition bwSurfVol (g : grid) : Z := locVol g - nonBwSurfVol g.
Definition surfVol (g : grid) : Z := locVol g - bulkVol g.

(** the six lists filled by find_bulk_sites *)
Record surfLists := mkSurf {
  loclxOfBulklx : list Z; loclxOfSurflx : list Z;
  loclxOfNonFwSurflx : list Z; loclxOfFwSurflx : list Z;
  loclxOfNonBwSurflx : list Z; loclxOfBwSurflx : list Z }.

(** geometry_lx.cpp:465-480  flags of one site (inner loop over mu) *)
Definition surf_flags (g : grid) (x : list Z) : bool * bool * bool :=
  fold_left (fun '(bulk, nfw, nbw) mu =>
    if isDirParallel g mu then
      let '(bulk, nfw) := if x.[mu] =? (locSize g).[mu] - 1 then (false, false) else (bulk, nfw) in
      let '(bulk, nbw) := if x.[mu] =? 0 then (false, false) else (bulk, nbw) in
      (bulk, nfw, nbw)
    else (bulk, nfw, nbw)) dirs (true, true, true).

(** geometry_lx.cpp:481-488  one iteration of the site loop *)
Definition mark_site (g : grid) (t : labels) (s : option surfLists) (ivol : Z) : option surfLists :=
  match s, locCoordOfLoclx t ivol with
  | Some s, Some x =>
      let '(bulk, nfw, nbw) := surf_flags g x in
      Some {| loclxOfBulklx := if bulk then loclxOfBulklx s ++ [ivol] else loclxOfBulklx s;
              loclxOfSurflx := if bulk then loclxOfSurflx s else loclxOfSurflx s ++ [ivol];
              loclxOfNonFwSurflx := if nfw then loclxOfNonFwSurflx s ++ [ivol] else loclxOfNonFwSurflx s;
              loclxOfFwSurflx := if nfw then loclxOfFwSurflx s else loclxOfFwSurflx s ++ [ivol];
              loclxOfNonBwSurflx := if nbw then loclxOfNonBwSurflx s ++ [ivol] else loclxOfNonBwSurflx s;
              loclxOfBwSurflx := if nbw then loclxOfBwSurflx s else loclxOfBwSurflx s ++ [ivol] |}
  | _, _ => None
  end.

(** geometry_lx.cpp:457-496  find_bulk_sites, with its aborts (None) *)
Definition find_bulk_sites (g : grid) (t : labels) : option surfLists :=
  match fold_left (mark_site g t) (seqZ (locVol g)) (Some (mkSurf [] [] [] [] [] [])) with
  | None => None
  | Some s =>
      let len l := Z.of_nat (length l) in
      if (len (loclxOfBulklx s) =? bulkVol g) && (len (loclxOfSurflx s) =? surfVol g) &&
         (len (loclxOfNonFwSurflx s) =? nonFwSurfVol g) && (len (loclxOfNonBwSurflx s) =? nonBwSurfVol g) &&
         (len (loclxOfFwSurflx s) =? fwSurfVol g) && (len (loclxOfBwSurflx s) =? bwSurfVol g)
      then Some s else None
  end.

(** init.cpp:523-558  init_boxes *)
Definition nboxes : list Z := [2;2;2;2].
Definition boxCoord (ibox : Z) : list Z := coordOfLx ibox nboxes.
Definition boxSize0 (g : grid) : list Z := map (fun l => Z.quot l 2) (locSize g).
Definition boxSize (g : grid) (ibox : Z) : list Z :=
  if ibox =? 0 then boxSize0 g
  else map (fun mu => if (boxCoord ibox).[mu] =? 0 then (boxSize0 g).[mu]
                      else (locSize g).[mu] - (boxSize0 g).[mu]) dirs.
Definition nsite_per_box (g : grid) (ibox : Z) : Z :=
  fold_left (fun a mu => a * (boxSize g ibox).[mu]) dirs 1.
(** gauge_sweeper.cpp:77-83  local index of the site isub of the box *)
Definition box_site (g : grid) (ibox isub : Z) : Z :=
  let c := coordOfLx isub (boxSize g ibox) in
  loclxOfCoord g (map (fun mu => (boxSize0 g).[mu] * (boxCoord ibox).[mu] + c.[mu]) dirs).

(** geometry_lx.hpp:373-378 *)
Definition get_mirrorized_site_coord (g : grid) (c : Z) (mu : nat) (flip : bool) : Z :=
  Z.rem ((glbSize g).[mu] + (1 - 2 * (if flip then 1 else 0)) * c) (glbSize g).[mu].
(** geometry_lx.hpp:381-390; get_bit(imir,mu) is bit mu of imir *)
Definition get_mirrorized_site_coords (g : grid) (c : list Z) (imir : Z) : list Z :=
  map (fun mu => get_mirrorized_site_coord g c.[mu] mu (Z.testbit imir (Z.of_nat mu))) dirs.

(** geometry_lx.cpp:703-712  the four phases of a site, given its global coordinates *)
Definition getStagphases (x : list Z) : list Z :=
  let f p mu := p * (1 - 2 * Z.rem x.[mu] 2) in
  let p0 := 1 in let p1 := f p0 0%nat in let p2 := f p1 1%nat in let p3 := f p2 2%nat in
  [p0; p1; p2; p3].
(** geometry_lx.cpp:715-724  a single phase: for(nu=1;nu<=mu;nu++) *)
Definition getStagphase (x : list Z) (mu : nat) : Z :=
  fold_left (fun ph nu => ph * (1 - 2 * Z.rem x.[nu - 1] 2)) (seq 1 mu) 1.
