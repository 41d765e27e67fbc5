(** Dirac matrices: src/new_types/dirac.hpp, dirac.cpp.  A dirac_matr holds, for each of the four rows, the column of the only non-zero
    entry of the row and the entry.  It is passed and returned by value: the entries are complex numbers (exact real arithmetic), with
    the operations that complex.hpp carries out on them (C42).  Rows from 4 on do not exist and are never read. *)
From Coq Require Import Reals List ZArith.
From Coquelicot Require Import Complex.
Import ListNotations.
Open Scope C_scope.

(** dirac.hpp:16 *)
Definition NDIRAC : nat := 4.
(** dirac.hpp:23-28 *)
Record dirac_matr := DM { pos : nat -> nat; entr : nat -> C }.
(** the field [ig] of a local array *)
Definition put {A} (f : nat -> A) (ig : nat) (x : A) : nat -> A := fun k => if Nat.eqb k ig then x else f k.
(** dirac.hpp:46-67; an int in front of a double argument is converted: the arguments are doubles *)
Definition init_dirac (pos0 : nat) (rea0 ima0 : R) (pos1 : nat) (rea1 ima1 : R) (pos2 : nat) (rea2 ima2 : R) (pos3 : nat) (rea3 ima3 : R) : dirac_matr :=
  DM (fun k => match k with 0 => pos0 | 1 => pos1 | 2 => pos2 | _ => pos3 end)%nat
     (fun k => match k with 0 => (rea0, ima0) | 1 => (rea1, ima1) | 2 => (rea2, ima2) | _ => (rea3, ima3) end)%nat.

(** a loop on the rows which may end the program (CRASH: None); [out] starts with arbitrary content *)
Definition row_loop (body : nat -> dirac_matr -> option dirac_matr) (out : dirac_matr) : option dirac_matr :=
  fold_left (fun o ig => match o with Some d => body ig d | None => None end) (seq 0 NDIRAC) (Some out).
Definition set_row (d : dirac_matr) (ig p : nat) (e : C) : dirac_matr := DM (put (pos d) ig p) (put (entr d) ig e).
(** a local dirac_matr: what it holds at the beginning is not specified *)
Section Junk.
Variable junk : dirac_matr.

(** dirac.hpp:71-86 *)
Definition dirac_summ (in1 in2 : dirac_matr) : option dirac_matr :=
  row_loop (fun ig out => if Nat.eqb (pos in1 ig) (pos in2 ig) then Some (set_row out ig (pos in1 ig) (entr in1 ig + entr in2 ig)) else None) junk.
(** dirac.hpp:88-102 *)
Definition dirac_subt (in1 in2 : dirac_matr) : option dirac_matr :=
  row_loop (fun ig out => if Nat.eqb (pos in1 ig) (pos in2 ig) then Some (set_row out ig (pos in1 ig) (entr in1 ig - entr in2 ig)) else None) junk.
(** a loop on the rows which does not fail *)
Definition rows (f : nat -> nat * C) : dirac_matr :=
  fold_left (fun out ig => set_row out ig (fst (f ig)) (snd (f ig))) (seq 0 NDIRAC) junk.
(** dirac.hpp:105-135 *)
Definition dirac_prod (in1 in2 : dirac_matr) : dirac_matr :=
  rows (fun ig1 => let ig2 := pos in1 ig1 in (pos in2 ig2, entr in1 ig1 * entr in2 ig2)).
(** dirac.hpp:137-148 *)
Definition dirac_prod_double (in1 : dirac_matr) (in2 : R) : dirac_matr := rows (fun id => (pos in1 id, entr in1 id * in2)).
(** dirac.hpp:150-161 *)
Definition dirac_prod_idouble (in1 : dirac_matr) (in2 : R) : dirac_matr := rows (fun id => (pos in1 id, entr in1 id * (Ci * in2))).
(** dirac.hpp:163-174; dirac.hpp:197-212 (dirac_compl_prod) is the same *)
Definition dirac_prod_complex (in1 : dirac_matr) (in2 : C) : dirac_matr := rows (fun id => (pos in1 id, entr in1 id * in2)).
(** dirac.hpp:177-193: UNROLL_FOR(jd,id+1,NDIRAC) *)
Definition dirac_herm (inp : dirac_matr) : option dirac_matr :=
  row_loop (fun id out =>
    if existsb (fun jd => Nat.eqb (pos inp id) (pos inp jd)) (seq (id + 1) (NDIRAC - (id + 1))) then None
    else let od := pos inp id in Some (set_row out od id (Cconj (entr inp id)))) junk.

(** dirac.cpp:41-65: init_base_gamma *)
Definition rad2 : R := 1 / sqrt 2.
Definition base_gamma_table : list dirac_matr := [
  init_dirac 0 1 0  1 1 0  2 1 0  3 1 0 ;
  init_dirac 3 0 (-1) 2 0 (-1) 1 0 1  0 0 1 ;
  init_dirac 3 (-1) 0 2 1 0  1 1 0  0 (-1) 0;
  init_dirac 2 0 (-1) 3 0 1  0 0 1  1 0 (-1);
  init_dirac 2 (-1) 0 3 (-1) 0 0 (-1) 0 1 (-1) 0;
  init_dirac 0 1 0  1 1 0  2 (-1) 0 3 (-1) 0;
  init_dirac 3 0 1  2 0 1  1 0 1  0 0 1 ;
  init_dirac 3 1 0  2 (-1) 0 1 1 0  0 (-1) 0;
  init_dirac 2 0 1  3 0 (-1) 0 0 1  1 0 (-1);
  init_dirac 2 1 0  3 1 0  0 (-1) 0 1 (-1) 0;
  init_dirac 1 0 (-1) 0 0 (-1) 3 0 1  2 0 1 ;
  init_dirac 1 (-1) 0 0 1 0  3 1 0  2 (-1) 0;
  init_dirac 0 0 (-1) 1 0 1  2 0 1  3 0 (-1);
  init_dirac 1 0 1  0 0 1  3 0 1  2 0 1 ;
  init_dirac 1 1 0  0 (-1) 0 3 1 0  2 (-1) 0;
  init_dirac 0 0 1  1 0 (-1) 2 0 1  3 0 (-1) ].
Definition base_gamma (i : nat) : dirac_matr :=
  if Nat.ltb i 16 then nth i base_gamma_table junk
  else if Nat.eqb i 16 then dirac_prod (nth 4 base_gamma_table junk) (nth 6 base_gamma_table junk)
  else if Nat.eqb i 17 then dirac_prod (nth 4 base_gamma_table junk) (nth 7 base_gamma_table junk)
  else dirac_prod (nth 4 base_gamma_table junk) (nth 8 base_gamma_table junk).
Definition Pplus : dirac_matr := init_dirac 0 rad2 rad2 1 rad2 rad2 2 rad2 (- rad2) 3 rad2 (- rad2).
Definition Pminus : dirac_matr := init_dirac 0 rad2 (- rad2) 1 rad2 (- rad2) 2 rad2 rad2 3 rad2 rad2.
(** dirac.cpp:67-78: smunu_entr[d1][imunu], smunu_pos[d1][imunu], given as the matrix of each imunu; the product of the integer
    coefficient with each of the two components *)
Definition lmunu : list nat := [10; 11; 12; 15; 14; 13]%nat.
Definition cmunu : list Z := [1; 1; 1; 1; -1; 1]%Z.
Definition smunu (imunu : nat) : dirac_matr :=
  let g := base_gamma (nth imunu lmunu 0%nat) in let c := IZR (nth imunu cmunu 0%Z) in
  DM (pos g) (fun d1 => (c * fst (entr g d1), c * snd (entr g d1))%R).
End Junk.

(** src/geometry/geometry_lx.hpp:239-244 *)
Definition iGammaOfMu (mu : nat) : nat := nth mu [4; 1; 2; 3]%nat 0%nat.
