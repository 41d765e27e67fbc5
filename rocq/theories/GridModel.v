(** Choice of the process grid: src/base/init.cpp:284-520 and factorize of src/routines/math_routines.cpp. *)
From Verif Require Import Base GeometryModel.

(** math_routines.cpp:72-95  factorize.  [fuel] bounds the iterations of the while loop (None: exhausted) *)
Fixpoint factorize_loop (fuel : nat) (N fatt : Z) (acc : list Z) : option (list Z) :=
  match fuel with
  | O => None
  | S f =>
      if 1 <? N then
        let div := Z.quot N fatt in
        let res := N - div * fatt in
        if res =? 0 then factorize_loop f div fatt (acc ++ [fatt])
        else factorize_loop f N (fatt + 1) acc
      else Some acc
  end.
Definition factorize (N : Z) : option (list Z) := factorize_loop (Z.to_nat (2 * N) + 1) N 2 [].

(** init.cpp:284-297  bulk_volume: do-while, the loop stops as soon as the volume vanishes *)
Fixpoint bulk_volume_loop (intvol : Z) (L : list Z) : Z :=
  match L with
  | [] => intvol
  | l :: r => let v := if 2 <? l then intvol * (l - 2) else 0 in
              if v =? 0 then v else bulk_volume_loop v r
  end.
Definition bulk_volume (L : list Z) : Z := bulk_volume_loop 1 L.
(** init.cpp:300-305 *)
Definition bulk_recip_lat_volume (R L : list Z) : Z := bulk_volume (map2 Z.quot L R).

(** init.cpp:308-323  compute_border_variance.  B is an int and B*B an int product: when it overflows
    (undefined behaviour) the value added is [ovf B], an arbitrary function.  (The 64 bit sums cannot overflow.) *)
Definition compute_border_variance (ovf : Z -> Z) (L P : list Z) (factorize_processor : bool) : Z :=
  let B ib := fold_left (fun b mu => if (mu =? ib)%nat then b
                 else b * (if factorize_processor then Z.quot L.[mu] P.[mu] else P.[mu])) dirs 1 in
  let sq b := if in_int (b * b) then b * b else ovf b in
  let SB := fold_left (fun s ib => s + B ib) dirs 0 in
  let S2B := fold_left (fun s ib => s + sq (B ib)) dirs 0 in
  Z.quot S2B 4 - Z.quot SB 4 * Z.quot SB 4.

(** init.cpp:413-447  distribution of the factors according to the digits of icombo in base NDIM.
    k is ifact+1.  inr ifact: the partitioning became invalid at ifact *)
Fixpoint assign_factors (L fact : list Z) (icombo : Z) (k : nat) (mask : Z) (R : list Z) : list Z + nat :=
  match k with
  | O => inl R
  | S ifact =>
      let mu := Z.to_nat (Z.rem (Z.quot icombo mask) 4) in
      let R' := upd R mu (R.[mu] * fact.[ifact]) in
      if (Z.rem L.[mu] R'.[mu] =? 0) && (R'.[mu] <=? L.[mu])
      then assign_factors L fact icombo ifact (Z.quot mask 4) R'
      else inr ifact
  end.

(** init.cpp:449-461  conversion to a grid of ranks, evenness and fixed directions *)
Definition to_ranks (L R : list Z) (factorize_rank : bool) : list Z :=
  if factorize_rank then R else map2 Z.quot L R.
Definition grid_accepted (L R fix_nranks : list Z) (use_eo : bool) : bool :=
  forallb (fun mu => (negb use_eo || (Z.rem (Z.quot L.[mu] R.[mu]) 2 =? 0)) &&
                     ((fix_nranks.[mu] =? 0) || (fix_nranks.[mu] =? R.[mu]))) dirs.

(** state of the search: mR, min_surf_LV, mBV *)
Record search := mkSearch { mR : list Z; min_surf : Z; mBV : Z }.

(** init.cpp:464-499  comparison with the best grid so far.  Both tests are performed, in this order;
    in the first one mBV is updated, min_surf_LV only at the end *)
Definition consider (ovf : Z -> Z) (L R : list Z) (LV : Z) (fr : bool) (s : search) : search :=
  let surf := LV - bulk_recip_lat_volume R L in
  let v := compute_border_variance ovf L R fr in
  let first := (surf <? min_surf s) || (min_surf s =? -1) in
  let mBV1 := if first then v else mBV s in
  let second := (surf =? min_surf s) && (v <? mBV1) in
  let mBV2 := if second then v else mBV1 in
  if first || second then mkSearch R surf mBV2 else mkSearch (mR s) (min_surf s) mBV2.

(** init.cpp:507-508  the skip: mask=1; for(jfact<ifact-1) mask*=NDIM *)
Definition skip (ifact : Z) : Z := 4 ^ (Z.max 0 (ifact - 1)).

(** init.cpp:410-511  the do-while loop on icombo.  [fuel] bounds the iterations (None: exhausted) *)
Fixpoint search_loop (ovf : Z -> Z) (fuel : nat) (L fact fixn : list Z) (use_eo fr : bool) (LV ncombo icombo : Z) (s : search) : option search :=
  match fuel with
  | O => None
  | S f =>
      let n := length fact in
      let '(s', inc) :=
        match assign_factors L fact icombo n (4 ^ (Z.of_nat n - 1)) [1;1;1;1] with
        | inl R0 => let R := to_ranks L R0 fr in
                    if grid_accepted L R fixn use_eo
                    then (consider ovf L R LV fr s, 1)
                    else (s, skip (-1))
        | inr ifact => (s, skip (Z.of_nat ifact))
        end in
      if icombo + inc <? ncombo then search_loop ovf f L fact fixn use_eo fr LV ncombo (icombo + inc) s' else Some s'
  end.

Inductive grid_result := Crash | Undefined | Grid (R : list Z).

(** init.cpp:367-380  the checks on the fixed directions *)
Definition fix_possible (L fixn : list Z) (use_eo : bool) : bool :=
  forallb (fun mu => (fixn.[mu] =? 0) ||
     ((Z.rem L.[mu] fixn.[mu] =? 0) && negb (L.[mu] <? (if use_eo then 2 else 1)))) dirs.
Definition residual_ranks (NR : Z) (fixn : list Z) : Z :=
  fold_left (fun r mu => if fixn.[mu] =? 0 then r else Z.quot r fixn.[mu]) dirs NR.

(** init.cpp:326-520  findMinimalSurfaceGrid.  something_found is initialised to 1, so the final CRASH
    never happens and mR={-1,-1,-1,-1} is returned when nothing was found.  Undefined: the number of combos
    or the volume does not fit an int *)
Definition findMinimalSurfaceGrid (ovf : Z -> Z) (L fixn : list Z) (use_eo : bool) (NR : Z) : grid_result :=
  let V := volOfLx L in
  if negb (in_int V) then Undefined else
  let LV := Z.quot V NR in
  if use_eo && negb (Z.rem (Z.quot V NR) 16 =? 0) then Crash
  else if negb (Z.rem V NR =? 0) then Crash
  else if negb (fix_possible L fixn use_eo) then Crash
  else if residual_ranks NR fixn <? 1 then Crash
  else if NR =? 1 then Grid [1;1;1;1]
  else if NR =? V then Grid L
  else
    match factorize LV, factorize NR with
    | Some fLV, Some fNR =>
        let fr := (length fNR <=? length fLV)%nat in
        let fact := if fr then fNR else fLV in
        let ncombo := 4 ^ Z.of_nat (length fact) in
        if negb (in_int ncombo) then Undefined
        else match search_loop ovf (Z.to_nat ncombo) L fact fixn use_eo fr LV ncombo 0 (mkSearch [-1;-1;-1;-1] (-1) (-1)) with
             | Some s => Grid (mR s)
             | None => Undefined
             end
    | _, _ => Undefined
    end.
