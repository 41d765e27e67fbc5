(** Reordering of the sites: index_{to,from}_ILDG_remapping (src/io/ILDG_File.hpp:111-144), the index makers and
    unmakers of src/operations/remap_vector.hpp and add_conf_link_for_paths of src/communicate/all_to_all.cpp.
    None: signed overflow (undefined behaviour). *)
From Verif Require Import Base GeometryModel AllToAllModel.

(** geometry_lx.hpp scidacMapping *)
Definition scidacMapping : list nat := [0;3;2;1]%nat.

(** glbCoordOfLoclx[i] on rank r (filled by label_all_sites) *)
Definition glb_coords (g : grid) (r : Z) : table (list Z) := glbCoordOfLoclx (label_all_sites g (coordOfRank g r)).

(** ILDG_File.hpp:132-137: int arithmetic *)
Definition ildg_step (g : grid) (c : list Z) (o : option Z) (nu : nat) : option Z :=
  match o with
  | Some a => if in_int (a * (glbSize g).[nu]) && in_int (a * (glbSize g).[nu] + c.[nu])
              then Some (a * (glbSize g).[nu] + c.[nu]) else None
  | None => None
  end.
(** ILDG_File.hpp:129-144; locVol is int64_t and the results are converted to int *)
Definition index_to_ILDG (g : grid) (r : Z) : table (Z * Z) :=
  let t := glb_coords g r in fun i =>
  match t i with
  | None => None
  | Some c => match fold_left (ildg_step g c) scidacMapping (Some 0) with
              | Some k => Some (wrap32 (Z.quot k (locVol g)), wrap32 (Z.rem k (locVol g)))
              | None => None
              end
  end.
(** ILDG_File.hpp:111-126; the sum is computed in 64 bits and converted to int; the loop runs mu=3,2,1,0 *)
Definition unildg_step (g : grid) (s : list Z * Z) (nu : nat) : list Z * Z :=
  (upd (fst s) nu (Z.rem (snd s) (glbSize g).[nu]), Z.quot (snd s) (glbSize g).[nu]).
Definition index_from_ILDG (g : grid) (r i : Z) : Z * Z :=
  getLoclxAndRankOfCoords g (fst (fold_left (unildg_step g) (rev scidacMapping) ([0;0;0;0], wrap32 (r * locVol g + i)))).

(** as index maps handed to vector_remap_t; an undefined result is shown as a rank that does not exist *)
Definition total_index (f : Z -> table (Z * Z)) (r : Z) : Z -> Z * Z :=
  let t := f r in fun i => match t i with Some p => p | None => (-1, 0) end.
(** ILDG_File.hpp:168: the remapping used when writing *)
Definition ildg_write_remap {A} (g : grid) (sched : Z -> list Z) (input : Z -> table A) (out : table A) (r : Z) : option (table A) :=
  remap (nranks g) (fun _ => locVol g) (total_index (index_to_ILDG g)) sched input out r.
(** ILDG_File.hpp:323: the remapping used when reading *)
Definition ildg_read_remap {A} (g : grid) (sched : Z -> list Z) (input : Z -> table A) (out : table A) (r : Z) : option (table A) :=
  remap (nranks g) (fun _ => locVol g) (index_from_ILDG g) sched input out r.

(** geometry_lx.cpp:569-572 *)
Definition perp_vol (g : grid) (mu : nat) : Z := Z.quot (glbVol g) (glbSize g).[mu].
Definition max_locd_perp_size (g : grid) (mu : nat) : Z := Z.quot (perp_vol g mu + nranks g - 1) (nranks g).
Definition locd_perp_size (g : grid) (mu : nat) (r : Z) : Z := Z.min (max_locd_perp_size g mu) (perp_vol g mu - max_locd_perp_size g mu * r).
Definition locd_size (g : grid) (mu : nat) (r : Z) : Z := locd_perp_size g mu r * (glbSize g).[mu].

(** remap_vector.hpp:77-95 getLocDirIndexMaker: glb_perp_site is an int *)
Definition perp_step (g : grid) (mu : nat) (c : list Z) (o : option Z) (nu : nat) : option Z :=
  if (nu =? mu)%nat then o else ildg_step g c o nu.
Definition locd_make (g : grid) (mu : nat) (r : Z) : table (Z * Z) :=
  let t := glb_coords g r in fun i =>
  match t i with
  | None => None
  | Some c => match fold_left (perp_step g mu c) dirs (Some 0) with
              | Some p => let q := wrap32 (Z.quot p (max_locd_perp_size g mu)) in
                          Some (q, (p - q * max_locd_perp_size g mu) * (glbSize g).[mu] + c.[mu])
              | None => None
              end
  end.
(** remap_vector.hpp:117-140 getLocDirIndexUnmaker: 64 bit arithmetic, the loop runs nu=3,2,1,0 *)
Definition unperp_step (g : grid) (mu : nat) (s : list Z * Z) (nu : nat) : list Z * Z :=
  if (nu =? mu)%nat then s else unildg_step g s nu.
Definition locd_unmake (g : grid) (mu : nat) (r j : Z) : Z * Z :=
  let c := upd [0;0;0;0] mu (Z.rem j (glbSize g).[mu]) in
  getLoclxAndRankOfCoords g (fst (fold_left (unperp_step g mu) (rev dirs) (c, Z.quot j (glbSize g).[mu] + r * max_locd_perp_size g mu))).
(** remap_vector.hpp:98-113, 143-158 *)
Definition lx_to_locd {A} (g : grid) (mu : nat) (sched : Z -> list Z) (input : Z -> table A) (out : table A) (r : Z) : option (table A) :=
  remap (nranks g) (fun _ => locVol g) (total_index (locd_make g mu)) sched input out r.
Definition locd_to_lx {A} (g : grid) (mu : nat) (sched : Z -> list Z) (input : Z -> table A) (out : table A) (r : Z) : option (table A) :=
  remap (nranks g) (locd_size g mu) (locd_unmake g mu) sched input out r.

(** remap_vector.hpp:161-207 index_to_topo_corr_remapping; subcube and subcube_el are int *)
Definition subcube_size (g : grid) (mu : nat) (k : Z) : Z :=
  if k =? 0 then Z.quot (glbSize g).[mu] 2 + 1 else Z.quot (glbSize g).[mu] 2 - 1.
Definition subcube_coord (g : grid) (c : list Z) (mu : nat) : Z := if subcube_size g mu 0 <=? c.[mu] then 1 else 0.
Definition topo_step (g : grid) (c : list Z) (o : option (Z * Z)) (mu : nat) : option (Z * Z) :=
  match o with
  | Some (sub, el) =>
      let k := subcube_coord g c mu in
      let p := el * subcube_size g mu k in
      let e := p + (c.[mu] - k * subcube_size g mu 0) in
      if in_int p && in_int e then Some (sub * 2 + k, e) else None
  | None => None
  end.
Definition subcube_vol (g : grid) (isub : Z) : Z :=
  fold_left (fun v mu => v * subcube_size g mu (coordOfLx isub [2;2;2;2]).[mu]) dirs 1.
Definition minind_cube_vol (g : grid) (sub : Z) : Z := fold_left (fun a isub => a + subcube_vol g isub) (seqZ sub) 0.
Definition index_to_topo (g : grid) (r : Z) : table (Z * Z) :=
  let t := glb_coords g r in fun i =>
  match t i with
  | None => None
  | Some c => match fold_left (topo_step g c) dirs (Some (0, 0)) with
              | Some (sub, el) => let tmp := el + minind_cube_vol g sub in
                                  Some (wrap32 (Z.quot tmp (locVol g)), Z.rem tmp (locVol g))
              | None => None
              end
  end.

(** all_to_all.cpp:410-440 add_conf_link_for_paths.  The list is a std::map from the code asked to the position;
    [const auto [ivol,irank]=getLoclxAndRankOfCoords(g)] although the function returns {rank,ivol} (geometry_lx.hpp:343-356).
    The result is the position of the link and the new list. *)
Definition add_conf_link_for_paths (g : grid) (rank : Z) (l : list (Z * Z)) (x : list Z) (mu : Z) : Z * list (Z * Z) :=
  let '(ivol, irank) := getLoclxAndRankOfCoords g x in
  let ilink := 4 * ivol + mu in
  if irank =? rank then (ilink, l)
  else
    let code := ilink * nranks g + irank in
    match find (fun p => fst p =? code) l with
    | Some p => (snd p, l)
    | None => let ig := 4 * locVol g + Z.of_nat (length l) in (ig, (code, ig) :: l)
    end.
