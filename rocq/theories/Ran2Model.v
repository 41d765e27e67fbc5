(** Model of the ran2 generator of src/base/random.{cpp,hpp}.
    Every int operation is checked: None stands for a signed overflow, an access outside the table or a read of a cell
    never written.  Double operations are the IEEE754 ones: the exact result rounded to the nearest binary64 number. *)
From Coq Require Import Reals.
From Flocq Require Import Core.
From Verif Require Import Base GeometryModel.
Open Scope Z_scope.

(** a C++ int expression: defined only if the result fits *)
Definition ck (z : Z) : option Z := if in_int z then Some z else None.
Notation "'let?' x := a 'in' b" := (match a with Some x => b | None => None end)
  (at level 200, x pattern, a at level 100, b at level 200).

(** random.hpp:23, random.cpp:51-52, 166-167 *)
Definition RAN2_NTAB : nat := 32.
Definition im1 : Z := 2147483563.
Definition im2 : Z := 2147483399.
Definition imm1 : Z := im1 - 1.
Definition ia1 : Z := 40014.
Definition ia2 : Z := 40692.
Definition iq1 : Z := 53668.
Definition iq2 : Z := 52774.
Definition ir1 : Z := 12211.
Definition ir2 : Z := 3791.
Definition ndiv : Z := 1 + Z.quot imm1 (Z.of_nat RAN2_NTAB).

(** random.hpp:39-45 *)
Record rnd_gen := mkGen { idum : Z; idum2 : Z; iv : list Z; iy : Z }.

(** random.cpp:61-63, 171-177: "k=idum/iq; idum=ia*(idum-k*iq)-k*ir; if(idum<0) idum+=im" *)
Definition schrage (ia iq ir im x : Z) : option Z :=
  let k := Z.quot x iq in
  let? kq := ck (k * iq) in
  let? d := ck (x - kq) in
  let? ad := ck (ia * d) in
  let? kr := ck (k * ir) in
  let? y := ck (ad - kr) in
  if y <? 0 then ck (y + im) else Some y.

(** random.cpp:59-65, j from RAN2_NTAB+7 to 0: the argument is j+1 *)
Fixpoint start_loop (j : nat) (x : Z) (t : list Z) : option (Z * list Z) :=
  match j with
  | O => Some (x, t)
  | S j => let? x' := schrage ia1 iq1 ir1 im1 x in
           start_loop j x' (if (j <? RAN2_NTAB)%nat then upd t j x' else t)
  end.
(** random.cpp:48-67; garbage: the content of the structure before *)
Definition start_rnd_gen (garbage : list Z) (seed : Z) : option rnd_gen :=
  let? s := ck (seed + 1) in
  let x := Z.max s 1 in
  let? (y, t) := start_loop (RAN2_NTAB + 8) x garbage in
  Some (mkGen y x t (t.[0])).

(** random.cpp:171-183: the integer part of rnd_get_unif *)
Definition rnd_step (g : rnd_gen) : option rnd_gen :=
  let? x := schrage ia1 iq1 ir1 im1 (idum g) in
  let? x2 := schrage ia2 iq2 ir2 im2 (idum2 g) in
  let j := Z.quot (iy g) ndiv in
  if (0 <=? j) && (j <? Z.of_nat RAN2_NTAB) then
    let? v := nth_error (iv g) (Z.to_nat j) in
    let? d := ck (v - x2) in
    let? y := (if d <? 0 then ck (d + imm1) else Some d) in
    Some (mkGen x x2 (upd (iv g) (Z.to_nat j) x) y)
  else None.

(** binary64 rounding to nearest, ties to even, with gradual underflow *)
Definition b64 (x : R) : R := round radix2 (FLT_exp (-1074) 53) ZnearestE x.
(** random.cpp:168: am=1.0/im1, eps=1.2e-7, rnmx=1-eps *)
Definition am : R := b64 (1 / IZR im1).
Definition eps : R := b64 (12 / 100000000).
Definition rnmx : R := b64 (1 - eps).
(** random.cpp:185-187: "out=nissa_min(am*gen->iy,rnmx); return out*(max-min)+min" *)
Definition unif01 (y : Z) : R := Rmin (b64 (am * IZR y)) rnmx.
Definition unif_value (y : Z) (mn mx : R) : R := b64 (b64 (unif01 y * b64 (mx - mn)) + mn).
(** random.cpp:164-188 *)
Definition rnd_get_unif (g : rnd_gen) (mn mx : R) : option (R * rnd_gen) :=
  let? g' := rnd_step g in Some (unif_value (iy g') mn mx, g').

(** random.cpp:191-198 generate_random_coord: the conversion of a double to int truncates *)
Fixpoint random_coords (g : rnd_gen) (sizes : list Z) : option (list Z * rnd_gen) :=
  match sizes with
  | [] => Some ([], g)
  | L :: r => let? (v, g') := rnd_get_unif g 0 (IZR L) in
              let? (c, g'') := random_coords g' r in
              Some (Ztrunc v :: c, g'')
  end.

(** random.cpp:201-206 *)
Definition rnd_get_pm_one (g : rnd_gen) : option (Z * rnd_gen) :=
  let? (r, g') := rnd_get_unif g 0 1 in
  Some (if Rlt_dec (1/2) r then 1 else -1, g').

(** n draws *)
Fixpoint draws (n : nat) (g : rnd_gen) : option rnd_gen :=
  match n with O => Some g | S n => let? g' := rnd_step g in draws n g' end.

(** random.cpp:122-144, local generators on rank r; [gg]: the global generator; RAND_MAX is 2^31-1 *)
Definition RAND_MAX : Z := 2147483647.
Definition internal_seed (glbvol : Z) (gg : rnd_gen) : option (Z * rnd_gen) :=
  let? (v, g') := rnd_get_unif gg 0 (b64 (IZR (RAND_MAX - glbvol))) in
  let? s := ck (Ztrunc v) in Some (s, g').
(** l.136-142: loc_seed is an int64_t, passed to an int parameter *)
Definition site_gen (seed : Z) (glblx : Z) (garbage : list Z) : option rnd_gen :=
  let loc_seed := seed + glblx in
  if loc_seed <? 0 then None else start_rnd_gen garbage (wrap32 loc_seed).
(** random.cpp:122-144: the table loc_rnd_gen of rank r *)
Definition loc_rnd_gen (g : grid) (gg : rnd_gen) (garbage : Z -> list Z) (r : Z) : table rnd_gen :=
  fun i => let? (s, _) := internal_seed (glbVol g) gg in
           let? gl := glblxOfLoclx (label_all_sites g (coordOfRank g r)) i in
           site_gen s gl (garbage i).

(** random.cpp:255-374: generate_*_source. [draw]: the calls to comp_get_rnd done at one site, all of them on the generator
    of that site, giving the value stored there; None in the result: the site is left at zero by reset *)
Definition generate_source {A} (g : grid) (draw : rnd_gen -> option (A * rnd_gen)) (dir : nat) (twall : Z) (r : Z)
  (gens : table rnd_gen) (i : Z) : option (option A * rnd_gen) :=
  let? x := glbCoordOfLoclx (label_all_sites g (coordOfRank g r)) i in
  let? gen := gens i in
  if (x.[dir] =? twall) || (twall <? 0) then let? (a, gen') := draw gen in Some (Some a, gen') else Some (None, gen).

(** random.cpp:424-449 generate_delta_source: the local site of rank r set to 1, if any *)
Definition delta_site (g : grid) (x : list Z) (r : Z) : option Z :=
  let rc := coordOfRank g r in
  let lx := map (fun mu => x.[mu] - rc.[mu] * (locSize g).[mu]) dirs in
  if forallb (fun mu => (0 <=? lx.[mu]) && (lx.[mu] <? (locSize g).[mu])) dirs then Some (loclxOfCoord g lx) else None.
