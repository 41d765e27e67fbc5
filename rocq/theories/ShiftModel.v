(** Shift of a field by one site: src/operations/shift.hpp:11-90.  The matrices are opaque values moved as a whole
    (su3_copy, quad_su3_copy). *)
From Verif Require Import Base GeometryModel HaloModel.
Open Scope Z_scope.

(** shift.hpp:34-42: coordinates of the iperp-th line along mu; the component mu is set after, x starts uninitialised (here 0) *)
Definition perp_coords (g : grid) (mu : nat) (iperp : Z) : list Z :=
  snd (fold_left (fun (s : Z * list Z) (inu : nat) =>
        let nu := nth inu (perpDirs mu) O in
        let '(jperp, x) := s in
        (Z.quot jperp (locSize g).[nu], upd x nu (Z.rem jperp (locSize g).[nu])))
      [2; 1; 0]%nat (iperp, [0; 0; 0; 0])).

(** u[i]=v *)
Definition put {A} (u : table A) (i : Z) (v : option A) : table A := fun j => if j =? i then v else u j.

(** shift.hpp:54-66: the do-while loop along the line; [up] is true when the upper neighbour is read (sign not positive); the
    result is the field and isite at the exit *)
Fixpoint line_loop {A} (fuel : nat) (g : grid) (rc : list Z) (t : labels) (mu : nat) (up : bool) (sh en : Z)
         (x isite : Z) (u : table A) : option (table A * Z) :=
  match fuel with
  | O => None
  | S f =>
      match loclxNeigh g rc t up isite mu with
      | None => None
      | Some ineigh =>
          let u := put u isite (u ineigh) in
          let x := x + sh in
          let isite' := if negb (x =? en + sh) then ineigh else isite in
          if negb (x =? en + sh) then line_loop f g rc t mu up sh en x isite' u else Some (u, isite')
      end
  end.

(** shift.hpp:21-23, 43-71: one line *)
Definition shift_line {A} (g : grid) (rc : list Z) (t : labels) (mu : nat) (sign : Z) (u : table A) (iperp : Z) : option (table A) :=
  let sh := if 0 <? sign then -1 else 1 in
  let st := if 0 <? sign then (locSize g).[mu] - 1 else 0 in
  let en := if 0 <? sign then 0 else (locSize g).[mu] - 1 in
  let x := upd (perp_coords g mu iperp) mu st in
  let isite := loclxOfCoord g x in
  let buf := u isite in
  match line_loop (Z.to_nat (locSize g).[mu]) g rc t mu (negb (0 <? sign)) sh en st isite u with
  | None => None
  | Some (u, isite) => if (nRanksDir g).[mu] =? 1 then Some (put u isite buf) else Some u
  end.

(** shift.hpp:11-72: su3_vec_single_shift on rank r; [sched] orders the loops of the halo exchange, [order] the parallel loop on
    the lines (any order: the lines do not share sites) *)
Definition su3_vec_single_shift {A} (g : grid) (sched : Z -> list Z) (order : list Z) (mu : nat) (sign : Z)
    (data : Z -> table A) (r : Z) : option (table A) :=
  match updateHalo g sched data r with
  | None => None
  | Some u => fold_left (fun (o : option (table A)) iperp =>
                match o with
                | None => None
                | Some u => shift_line g (coordOfRank g r) (rank_labels g r) mu sign u iperp
                end) order (Some u)
  end.
(** shift.hpp:26 *)
Definition perp_vol (g : grid) (mu : nat) : Z := Z.quot (locVol g) (locSize g).[mu].

(** shift.hpp:74-90: quad_su3_vec_single_shift; loclx_neigh has two entries, 0 for down and 1 for up (geometry_lx.cpp:522-523):
    other values of [sign] read outside of it (None) *)
Definition quad_su3_vec_single_shift {A} (g : grid) (sched : Z -> list Z) (order : list Z) (mu : nat) (sign : Z)
    (data : Z -> table A) (r : Z) : option (table A) :=
  match updateHalo g sched data r with
  | None => None
  | Some u =>
      if (1 - sign =? 0) || (1 - sign =? 1) then
        fold_left (fun (o : option (table A)) ivol =>
          match o with
          | None => None
          | Some res => match loclxNeigh g (coordOfRank g r) (rank_labels g r) (1 - sign =? 1) ivol mu with
                        | None => None
                        | Some n => Some (put res ivol (u n))
                        end
          end) order (Some (data r))
      else None
  end.
