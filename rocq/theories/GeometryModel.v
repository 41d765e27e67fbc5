(** Model of src/geometry/geometry_lx.{cpp,hpp} and of the grid volumes computed in
    src/base/init.cpp.  Coordinates are lists of integers (NDIM of them in the code,
    geometry_lx.hpp:25); 64 bit quantities are unbounded Z. *)
From Verif Require Import Base.

(** geometry_lx.hpp:25 *)
Definition NDIM : nat := 4.
Definition dirs : list nat := [0; 1; 2; 3]%nat.

(** geometry_lx.cpp:51-60  lxOfCoord: ilx=0; for mu: ilx=ilx*s[mu]+x[mu] *)
Definition lxOfCoord (x s : list Z) : Z :=
  fold_left (fun ilx p => ilx * snd p + fst p) (combine x s) 0.

(** geometry_lx.cpp:62-76  coordOfLx: from the last direction to the first,
    x[mu]=ilx%s[mu]; ilx/=s[mu]  (C++ truncated division) *)
Fixpoint coordOfLx_rev (ilx : Z) (srev : list Z) : list Z :=
  match srev with
  | [] => []
  | n :: r => Z.rem ilx n :: coordOfLx_rev (Z.quot ilx n) r
  end.
Definition coordOfLx (ilx : Z) (s : list Z) : list Z := rev (coordOfLx_rev ilx (rev s)).

(** geometry_lx.cpp:79-87  volOfLx *)
Definition volOfLx (s : list Z) : Z := fold_left Z.mul s 1.

(** The global variables glbSize and nRanksDir, from which initGrid (init.cpp:563-727)
    derives all the others.  The number of ranks is the product of nRanksDir
    (guaranteed by findMinimalSurfaceGrid, see GridModel). *)
Record grid := mkGrid { glbSize : list Z; nRanksDir : list Z }.

(** init.cpp:636-638  locSize[mu]=glbSize[mu]/nRanksDir[mu] *)
Definition locSize (g : grid) : list Z := map2 Z.quot (glbSize g) (nRanksDir g).

(** init.cpp:586-589, 610 *)
Definition glbVol (g : grid) : Z := volOfLx (glbSize g).
Definition nranks (g : grid) : Z := volOfLx (nRanksDir g).

(** init.cpp:641  set_locVol(glbVol/nranks) *)
Definition locVol (g : grid) : Z := Z.quot (glbVol g) (nranks g).

(** The aborts of initGrid/init_boxes (init.cpp:609-624 and 528): every nRanksDir positive,
    glbSize multiple of nRanksDir, local sides at least 2.  A grid passing them is valid. *)
Definition valid_grid (g : grid) : bool :=
  (length (glbSize g) =? NDIM)%nat && (length (nRanksDir g) =? NDIM)%nat &&
  forallb (fun mu => (0 <? (nRanksDir g).[mu]) &&
                     (Z.rem (glbSize g).[mu] (nRanksDir g).[mu] =? 0) &&
                     (2 <=? (locSize g).[mu])) dirs.

(** init.cpp:625  _isDirParallel[mu]=(nRanksDir[mu]>1) *)
Definition isDirParallel (g : grid) (mu : nat) : bool := 1 <? (nRanksDir g).[mu].

(** geometry_lx.cpp:90-101 *)
Definition loclxOfCoord (g : grid) (x : list Z) : Z := lxOfCoord x (locSize g).
Definition glblxOfCoord (g : grid) (x : list Z) : Z := lxOfCoord x (glbSize g).

(** geometry_lx.cpp:129-143  glbCoordOfGlblx.  [int next=gx/glbSize[mu]] converts to int
    (modulo 2^32); [next*glbSize[mu]] is an int product whose overflow is undefined
    behaviour (None); the difference is stored into an int. *)
Fixpoint glbCoordOfGlblx_rev (gx : Z) (srev : list Z) : option (list Z) :=
  match srev with
  | [] => Some []
  | n :: r =>
      let next := wrap32 (Z.quot gx n) in
      let p := next * n in
      if in_int p then
        match glbCoordOfGlblx_rev next r with
        | Some t => Some (wrap32 (gx - p) :: t)
        | None => None
        end
      else None
  end.
Definition glbCoordOfGlblx (g : grid) (gx : Z) : option (list Z) :=
  option_map (@rev Z) (glbCoordOfGlblx_rev gx (rev (glbSize g))).

(** geometry_lx.cpp:163-171 *)
Definition rankCoordsOfSiteOfCoord (g : grid) (x : list Z) : list Z := map2 Z.quot x (locSize g).
(** geometry_lx.cpp:174-182 *)
Definition rankOfCoords (g : grid) (x : list Z) : Z := lxOfCoord x (nRanksDir g).
Definition coordOfRank (g : grid) (r : Z) : list Z := coordOfLx r (nRanksDir g).
(** geometry_lx.cpp:185-199 *)
Definition rankHostingSiteOfCoords (g : grid) (x : list Z) : Z :=
  rankOfCoords g (rankCoordsOfSiteOfCoord g x).
Definition rankHostingGlblx (g : grid) (gx : Z) : option Z :=
  option_map (rankHostingSiteOfCoords g) (glbCoordOfGlblx g gx).

(** geometry_lx.hpp:343-356  getLoclxAndRankOfCoords: p=g/locSize, l=g-p*locSize,
    returns the pair {rank,ivol} in this order *)
Definition getLoclxAndRankOfCoords (g : grid) (x : list Z) : Z * Z :=
  let p := map2 Z.quot x (locSize g) in
  let l := map2 Z.sub x (map2 Z.mul p (locSize g)) in
  (rankOfCoords g p, loclxOfCoord g l).
(** geometry_lx.hpp:359-362 *)
Definition getLoclxAndRankOfGlblx (g : grid) (gx : Z) : option (Z * Z) :=
  option_map (getLoclxAndRankOfCoords g) (glbCoordOfGlblx g gx).

(** geometry_lx.cpp:580-596 *)
Definition glblxNeighup (g : grid) (gx : Z) (mu : nat) : option Z :=
  option_map (fun c => glblxOfCoord g (upd c mu (Z.rem (c.[mu] + 1) (glbSize g).[mu])))
             (glbCoordOfGlblx g gx).
Definition glblxNeighdw (g : grid) (gx : Z) (mu : nat) : option Z :=
  option_map (fun c => glblxOfCoord g (upd c mu (Z.rem (c.[mu] + (glbSize g).[mu] - 1) (glbSize g).[mu])))
             (glbCoordOfGlblx g gx).

(** init.cpp:658-673 *)
Definition bordDirVol (g : grid) (mu : nat) : Z :=
  if isDirParallel g mu then Z.quot (locVol g) (locSize g).[mu] else 0.
Fixpoint bordOffset (g : grid) (mu : nat) : Z :=
  match mu with
  | O => 0
  | S m => bordOffset g m + bordDirVol g m
  end.
Definition bordVolh (g : grid) : Z := fold_left (fun a mu => a + bordDirVol g mu) dirs 0.
Definition bordVol (g : grid) : Z := 2 * bordVolh g.

(** init.cpp:678-702: loop mu=0..NDIM-1, nu=mu+1..NDIM-1 *)
Definition edge_dirs : list (nat * nat) :=
  flat_map (fun mu => map (fun nu => (mu, nu)) (filter (fun nu => (mu <? nu)%nat) dirs)) dirs.
Definition nEdges : nat := length edge_dirs.
Definition edge_dir (iedge : nat) : nat * nat := nth iedge edge_dirs (0, 0)%nat.
Definition edge_dir_vol (g : grid) (iedge : nat) : Z :=
  let '(mu, nu) := edge_dir iedge in
  if isDirParallel g mu && isDirParallel g nu
  then Z.quot (bordDirVol g mu) (locSize g).[nu] else 0.
Fixpoint edge_offset (g : grid) (iedge : nat) : Z :=
  match iedge with
  | O => 0
  | S i => edge_offset g i + edge_dir_vol g i
  end.
Definition edgeVol (g : grid) : Z :=
  4 * fold_left (fun a i => a + edge_dir_vol g i) (seq 0 nEdges) 0.

(** init.cpp:704-714: edge_numb[mu][nu]=edge_numb[nu][mu]=iedge in the order of edge_dirs,
    -1 on the diagonal (never read there) *)
Definition edge_numb (mu nu : nat) : nat :=
  let al := Nat.min mu nu in
  let be := Nat.max mu nu in
  (fix pos (l : list (nat * nat)) : nat :=
     match l with
     | [] => O
     | (a, b) :: t => if ((a =? al) && (b =? be))%nat then O else S (pos t)
     end) edge_dirs.

(** geometry_lx.hpp:222-231: perpDirs (set in init to {{1,2,3},{0,2,3},{0,1,3},{0,1,2}},
    base/init.cpp) and perp2Dirs literal table *)
Definition perpDirs (mu : nat) : list nat :=
  nth mu [[1;2;3]; [0;2;3]; [0;1;3]; [0;1;2]]%nat [].
Definition perp2Dirs (mu inu : nat) : list nat :=
  nth inu (nth mu [ [[2;3];[1;3];[1;2]]; [[2;3];[0;3];[0;2]];
                    [[1;3];[0;3];[0;1]]; [[1;2];[0;2];[0;1]] ]%nat []) [].

(** geometry_lx.cpp:38-48  bordlxOfCoord *)
Definition bordlxOfCoord (g : grid) (x : list Z) (mu : nat) : Z :=
  fold_left (fun ilx nu => if (nu =? mu)%nat then ilx else ilx * (locSize g).[nu] + x.[nu]) dirs 0.
(** geometry_lx.cpp:24-35  edgelxOfCoord *)
Definition edgelxOfCoord (g : grid) (x : list Z) (mu nu : nat) : Z :=
  fold_left (fun ilx rho => if ((rho =? mu) || (rho =? nu))%nat then ilx
                            else ilx * (locSize g).[rho] + x.[rho]) dirs 0.

(** geometry_lx.cpp:231-241  is_bord *)
Definition is_bord (g : grid) (x : list Z) (mu : nat) : Z :=
  if isDirParallel g mu then
    if x.[mu] =? (locSize g).[mu] then 1
    else if x.[mu] =? (glbSize g).[mu] - 1 then -1 else 0
  else 0.

Definition is_one_bord (g : grid) (x : list Z) (mu : nat) : bool :=
  negb (is_bord g x mu =? 0) && forallb (fun nu => is_bord g x nu =? 0) (perpDirs mu).
Definition is_edge_pair (g : grid) (x : list Z) (p : nat * nat) : bool :=
  let '(mu, inu) := p in
  let nu := nth inu (perpDirs mu) O in
  negb (is_bord g x mu =? 0) && negb (is_bord g x nu =? 0) &&
  forallb (fun rho => is_bord g x rho =? 0) (perp2Dirs mu inu).

(** geometry_lx.cpp:205-282  fullLxOfCoords.  The two while loops bringing each coordinate
    in [0,glbSize) are written as the modulo.  The CRASHes are unreachable (is_bord is -1, 0 or 1).
    0*edgeVol/4 etc. as in the code. *)
Definition fullLxOfCoords (g : grid) (ext_x : list Z) : Z :=
  let x := map2 Z.modulo ext_x (glbSize g) in
  if forallb (fun mu => (0 <=? x.[mu]) && (x.[mu] <? (locSize g).[mu])) dirs
  then loclxOfCoord g x
  else
    match find (is_one_bord g x) dirs with
    | Some mu =>
        if is_bord g x mu =? -1
        then locVol g + bordOffset g mu + bordlxOfCoord g x mu
        else locVol g + Z.quot (bordVol g) 2 + bordOffset g mu + bordlxOfCoord g x mu
    | None =>
        match find (is_edge_pair g x) (list_prod dirs [0;1;2]%nat) with
        | Some (mu, inu) =>
            let nu := nth inu (perpDirs mu) O in
            let al := if (mu <? nu)%nat then mu else nu in
            let be := if (nu <? mu)%nat then mu else nu in
            let iedge := edge_numb mu nu in
            let k := (if is_bord g x al =? -1 then 0 else 2) +
                     (if is_bord g x be =? -1 then 0 else 1) in
            locVol g + bordVol g + edge_offset g iedge + Z.quot (k * edgeVol g) 4
            + edgelxOfCoord g x mu nu
        | None => -1
        end
    end.

(** geometry_lx.cpp:351-358  the box extending over borders/edges *)
Definition extended_box_size (g : grid) : list Z :=
  map (fun mu => (if isDirParallel g mu then 2 else 0) + (locSize g).[mu]) dirs.

(** geometry_lx.cpp:363-364  "subtract by one if dir is parallelized" *)
Definition ext_coord (g : grid) (ivol : Z) : list Z :=
  map (fun mu => (coordOfLx ivol (extended_box_size g)).[mu] - (if isDirParallel g mu then 1 else 0)) dirs.

(** geometry_lx.cpp:371-372  (x+rankCoord*locSize+glbSize)%glbSize *)
Definition glb_of_ext (g : grid) (rc x : list Z) : list Z :=
  map (fun nu => Z.rem (x.[nu] + rc.[nu] * (locSize g).[nu] + (glbSize g).[nu]) (glbSize g).[nu]) dirs.

(** The tables filled by label_all_sites on the rank with coordinates rc *)
Record labels := mkLabels {
  glbCoordOfLoclx : table (list Z);
  locCoordOfLoclx : table (list Z);
  glblxOfLoclx    : table Z;
  glblxOfBordlx   : table Z;
  loclxOfBordlx   : table Z;
  glblxOfEdgelx   : table Z }.

(** geometry_lx.cpp:360-399  body of the loop of label_all_sites *)
Definition label_site (g : grid) (rc : list Z) (t : labels) (ivol : Z) : labels :=
  let x := ext_coord g ivol in
  let iloc := fullLxOfCoords g x in
  if iloc =? -1 then t
  else
    let gc := glb_of_ext g rc x in
    let iglb := glblxOfCoord g gc in
    let isl := iloc <? locVol g in
    let isb := (locVol g <=? iloc) && (iloc <? locVol g + bordVol g) in
    let ise := locVol g + bordVol g <=? iloc in
    {| glbCoordOfLoclx := tset (glbCoordOfLoclx t) iloc gc;
       locCoordOfLoclx := if isl then tset (locCoordOfLoclx t) iloc x else locCoordOfLoclx t;
       glblxOfLoclx := if isl then tset (glblxOfLoclx t) iloc iglb else glblxOfLoclx t;
       glblxOfBordlx := if isb then tset (glblxOfBordlx t) (iloc - locVol g) iglb else glblxOfBordlx t;
       loclxOfBordlx := if isb then tset (loclxOfBordlx t) (iloc - locVol g) iloc else loclxOfBordlx t;
       glblxOfEdgelx := if ise then tset (glblxOfEdgelx t) (iloc - locVol g - bordVol g) iglb
                        else glblxOfEdgelx t |}.

Definition no_labels : labels :=
  mkLabels tempty tempty tempty tempty tempty tempty.

(** geometry_lx.cpp:348-400  label_all_sites *)
Definition label_all_sites (g : grid) (rc : list Z) : labels :=
  fold_left (label_site g rc) (seqZ (volOfLx (extended_box_size g))) no_labels.

(** geometry_lx.cpp:403-424  find_neighbouring_sites: entry for site ivol, direction mu;
    up=true is loclxNeighup.  None: the coordinates of the site were never written. *)
Definition loclxNeigh (g : grid) (rc : list Z) (t : labels) (up : bool) (ivol : Z) (mu : nat) : option Z :=
  match glbCoordOfLoclx t ivol with
  | None => None
  | Some gc =>
      let n := map (fun nu => gc.[nu] - (locSize g).[nu] * rc.[nu]) dirs in
      let n' := if up then upd n mu (n.[mu] + 1) else upd n mu (n.[mu] - 1) in
      Some (fullLxOfCoords g n')
  end.

(** geometry_lx.cpp:501-520  rank of the neighbour ranks (ori=false backward, true forward) *)
Definition rankNeigh (g : grid) (rc : list Z) (ori : bool) (mu : nat) : Z :=
  rankOfCoords g
    (if ori then upd rc mu (Z.rem (rc.[mu] + 1) (nRanksDir g).[mu])
     else upd rc mu (Z.rem (rc.[mu] + (nRanksDir g).[mu] - 1) (nRanksDir g).[mu])).
