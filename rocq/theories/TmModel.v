(** Twisted mass Wilson operator: src/dirac_operators/tmQ/dirac_operator_tmQ_portable.cpp, its even-odd preconditioned form
    src/dirac_operators/tmD_eoprec/dirac_operator_tmD_eoprec_portable.{hpp,cpp}, and the operations on colours of src/new_types/su3_op.hpp.
    Exact real arithmetic; complex numbers are values, with the operations of complex.hpp (C49) and su3_op.hpp (C64), as in DiracModel.
    A field of spincolors is an object (named by a number) of a memory which gives the spincolor of each of its sites; the cast of the coverage of a
    field (castFieldCoverage) changes nothing in the memory.  The configuration, which no routine here changes, is a value.
    Simplifications: the sites of all the ranks have one numbering, so that updateHalo (C15) is not repeated, and the tables of the neighbours are
    [nup] and [ndw]; a parallel loop visits the sites in an arbitrary order [sched l], a different one for each loop. *)
From Coq Require Import Reals List Arith.
From Coquelicot Require Import Complex.
From Verif Require Import DiracModel.
Import ListNotations.
Open Scope C_scope.

(** su3.hpp: color, spincolor, su3 *)
Definition color := nat -> C.
Definition spincolor := nat -> color.
Definition su3 := nat -> nat -> C.
(** su3_op.hpp:239-298 *)
Definition color_summ (b c : color) : color := fun ic => b ic + c ic.
Definition color_isumm (b c : color) : color := fun ic => b ic + Ci * c ic.
Definition color_isubt (b c : color) : color := fun ic => b ic - Ci * c ic.
Definition color_subt (b c : color) : color := fun ic => b ic - c ic.
(** su3_op.hpp:332-348 *)
Definition color_prodassign_double (a : color) (b : R) : color := fun ic => a ic * b.
(** su3_op.hpp:1543-1559, 1592-1606 *)
Definition unsafe_su3_prod_color (b : su3) (c : color) : color := fun c1 => b c1 0%nat * c 0%nat + b c1 1%nat * c 1%nat + b c1 2%nat * c 2%nat.
Definition unsafe_su3_dag_prod_color (b : su3) (c : color) : color :=
  fun c1 => Cconj (b 0%nat c1) * c 0%nat + Cconj (b 1%nat c1) * c 1%nat + Cconj (b 2%nat c1) * c 2%nat.

(** fields *)
Definition smem := nat -> nat -> spincolor.
Definition wr (a X : nat) (v : spincolor) (m : smem) : smem := fun a' X' => if Nat.eqb a' a then (if Nat.eqb X' X then v else m a' X') else m a' X'.
(** f[X][id]=v *)
Definition wr_color (a X id : nat) (v : color) (m : smem) : smem := wr a X (put (m a X) id v) m.
(** su3_op.hpp:300-330, on out[X][id] *)
Definition color_summassign (out X id : nat) (b : color) (m : smem) : smem := wr_color out X id (color_summ (m out X id) b) m.
Definition color_subtassign (out X id : nat) (b : color) (m : smem) : smem := wr_color out X id (color_subt (m out X id) b) m.
Definition color_isummassign (out X id : nat) (b : color) (m : smem) : smem := wr_color out X id (color_isumm (m out X id) b) m.
Definition color_isubtassign (out X id : nat) (b : color) (m : smem) : smem := wr_color out X id (color_isubt (m out X id) b) m.
(** su3_op.hpp: spincolor_put_to_zero *)
Definition spincolor_put_to_zero (out X : nat) (m : smem) : smem := wr out X (fun _ _ => RtoC 0) m.
(** PAR(0,n,...,X,body) in the order [sched] *)
Definition PARs (sched : list nat) (body : nat -> smem -> smem) (m : smem) : smem := fold_left (fun m X => body X m) sched m.

Definition anis_prod (anis : option R) (mu : nat) (t : color) : color :=
  match anis with Some a => if Nat.ltb 0 mu then color_prodassign_double t a else t | None => t end.
(** dirac_operator_tmQ_portable.cpp:52-104, dirac_operator_tmD_eoprec_portable.hpp:58-110, which have the same text apart from the name of the
    neighbour and of the link: the body of the loop on mu, forward part *)
Definition hop_forward (out X inp Xup : nat) (U : su3) (anis : option R) (mu : nat) (m : smem) : smem :=
  let up := m inp Xup in
  let '(temp_c0, temp_c1) :=
    match mu with
    | 0 => (color_summ (up 0) (up 2), color_summ (up 1) (up 3))
    | 1 => (color_isumm (up 0) (up 3), color_isumm (up 1) (up 2))
    | 2 => (color_summ (up 0) (up 3), color_subt (up 1) (up 2))
    | _ => (color_isumm (up 0) (up 2), color_isubt (up 1) (up 3))
    end%nat in
  let temp_c2 := unsafe_su3_prod_color U temp_c0 in
  let temp_c3 := unsafe_su3_prod_color U temp_c1 in
  let temp_c2 := anis_prod anis mu temp_c2 in
  let temp_c3 := anis_prod anis mu temp_c3 in
  let m := color_summassign out X 0 temp_c2 m in
  let m := color_summassign out X 1 temp_c3 m in
  match mu with
  | 0 => color_summassign out X 3 temp_c3 (color_summassign out X 2 temp_c2 m)
  | 1 => color_isubtassign out X 3 temp_c2 (color_isubtassign out X 2 temp_c3 m)
  | 2 => color_summassign out X 3 temp_c2 (color_subtassign out X 2 temp_c3 m)
  | _ => color_isummassign out X 3 temp_c3 (color_isubtassign out X 2 temp_c2 m)
  end%nat.
(** dirac_operator_tmQ_portable.cpp:106-158, dirac_operator_tmD_eoprec_portable.hpp:112-164: backward part *)
Definition hop_backward (out X inp Xdw : nat) (U : su3) (anis : option R) (mu : nat) (m : smem) : smem :=
  let dw := m inp Xdw in
  let '(temp_c0, temp_c1) :=
    match mu with
    | 0 => (color_subt (dw 0) (dw 2), color_subt (dw 1) (dw 3))
    | 1 => (color_isubt (dw 0) (dw 3), color_isubt (dw 1) (dw 2))
    | 2 => (color_subt (dw 0) (dw 3), color_summ (dw 1) (dw 2))
    | _ => (color_isubt (dw 0) (dw 2), color_isumm (dw 1) (dw 3))
    end%nat in
  let temp_c2 := unsafe_su3_dag_prod_color U temp_c0 in
  let temp_c3 := unsafe_su3_dag_prod_color U temp_c1 in
  let temp_c2 := anis_prod anis mu temp_c2 in
  let temp_c3 := anis_prod anis mu temp_c3 in
  let m := color_summassign out X 0 temp_c2 m in
  let m := color_summassign out X 1 temp_c3 m in
  match mu with
  | 0 => color_subtassign out X 3 temp_c3 (color_subtassign out X 2 temp_c2 m)
  | 1 => color_isummassign out X 3 temp_c2 (color_isummassign out X 2 temp_c3 m)
  | 2 => color_subtassign out X 3 temp_c2 (color_summassign out X 2 temp_c3 m)
  | _ => color_isubtassign out X 3 temp_c3 (color_isummassign out X 2 temp_c2 m)
  end%nat.

Section Operators.
(** the orders of the loops *)
Variable sched : nat -> list nat.

(** dirac_operator_tmQ_portable.cpp:29-176; [kcf] is computed at line 40; the components 0 and 1 of a complex are [fst] and [snd] *)
Definition apply_tmQ (nup ndw : nat -> nat -> nat) (out : nat) (conf : nat -> nat -> su3) (kappa : R) (anis : option R) (mass : R) (inp : nat) : smem -> smem :=
  let kcf := (1 / (2 * kappa))%R in
  PARs (sched 0%nat) (fun X m =>
    let m := spincolor_put_to_zero out X m in
    let m := fold_left (fun m mu =>
        let Xup := nup X mu in
        let m := hop_forward out X inp Xup (conf X mu) anis mu m in
        let Xdw := ndw X mu in
        hop_backward out X inp Xdw (conf Xdw mu) anis mu m) (seq 0 4) m in
    wr out X (fun id c =>
      let o := m out X id c in let i := m inp X id c in
      if Nat.ltb id 2 then
        (-0.5 * fst o + kcf * fst i - mass * snd i, -0.5 * snd o + kcf * snd i + mass * fst i)%R
      else
        (0.5 * fst o - kcf * fst i - mass * snd i, 0.5 * snd o - kcf * snd i + mass * fst i)%R) m).

(** dirac_operator_tmD_eoprec_portable.hpp:34-169: xPar is the coverage of the type of [out] *)
Definition tmn2Deo_or_tmn2Doe_eos (l : nat) (nup ndw : nat -> nat -> nat -> nat) (xPar out : nat) (conf : nat -> nat -> nat -> su3) (anis : option R) (inp : nat) : smem -> smem :=
  PARs (sched l) (fun X m =>
    let m := spincolor_put_to_zero out X m in
    fold_left (fun m mu =>
        let Xup := nup xPar X mu in
        let m := hop_forward out X inp Xup (conf xPar X mu) anis mu m in
        let Xdw := ndw xPar X mu in
        hop_backward out X inp Xdw (conf (1 - xPar)%nat Xdw mu) anis mu m) (seq 0 4) m).
(** loops on ic and then on id, writing out[X][id][ic] from in[X][id][ic]: the four spins, 0,1 times z and 2,3 times its conjugate *)
Definition comp_prod (out inp X ic id : nat) (z : C) (m : smem) : smem := wr_color out X id (put (m out X id) ic (m inp X id ic * z)) m.
Definition diag_prod (out inp : nat) (z : C) (X : nat) (m : smem) : smem :=
  fold_left (fun m ic =>
    let m := fold_left (fun m id => comp_prod out inp X ic id z m) (seq 0 2) m in
    fold_left (fun m id => comp_prod out inp X ic id (Cconj z) m) (seq 2 2) m) (seq 0 3) m.
(** dirac_operator_tmD_eoprec_portable.hpp:172-195 *)
Definition tmDee_or_oo_eos (l out : nat) (kappa mu : R) (inp : nat) : smem -> smem :=
  PARs (sched l) (diag_prod out inp (1 / (2 * kappa), mu)%R).
(** dirac_operator_tmD_eoprec_portable.hpp:198-222 *)
Definition inv_tmDee_or_oo_eos (l out : nat) (kappa mu : R) (inp : nat) : smem -> smem :=
  let a := (1 / (2 * kappa))%R in let b := mu in let nrm := (a * a + b * b)%R in
  PARs (sched l) (diag_prod out inp (a / nrm, - b / nrm)%R).
(** dirac_operator_tmD_eoprec_portable.cpp:18-33; the spins id and id+2, for id=0,1 *)
Definition tmDkern_eoprec_eos_put_together_and_include_gamma5 (l out temp : nat) : smem -> smem :=
  PARs (sched l) (fun ivol m => fold_left (fun m id =>
    let m := wr_color out ivol id (fun ic => m temp ivol id ic - m out ivol id ic * 0.25%R) m in
    wr_color out ivol (id + 2) (fun ic => - m temp ivol (id + 2)%nat ic + m out ivol (id + 2)%nat ic * 0.25%R) m) (seq 0 2) m).

Variables nup ndw : nat -> nat -> nat -> nat.
Variable conf : nat -> nat -> nat -> su3.
(** dirac_operator_tmD_eoprec_portable.cpp:36-51 *)
Definition tmDkern_eoprec_eos (l out temp : nat) (kappa : R) (anis : option R) (mu : R) (inp : nat) (m : smem) : smem :=
  let m := tmn2Deo_or_tmn2Doe_eos l nup ndw 0 out conf anis inp m in
  let m := inv_tmDee_or_oo_eos (l + 1) temp kappa mu out m in
  let m := tmn2Deo_or_tmn2Doe_eos (l + 2) nup ndw 1 out conf anis temp m in
  let m := tmDee_or_oo_eos (l + 3) temp kappa mu inp m in
  tmDkern_eoprec_eos_put_together_and_include_gamma5 (l + 4) out temp m.
(** dirac_operator_tmD_eoprec_portable.cpp:54-66 *)
Definition tmDkern_eoprec_square_eos (l out temp1 temp2 : nat) (kappa : R) (anis : option R) (mu : R) (inp : nat) (m : smem) : smem :=
  let m := tmDkern_eoprec_eos l temp1 temp2 kappa anis (- mu) inp m in
  tmDkern_eoprec_eos (l + 5) out temp2 kappa anis mu temp1 m.
End Operators.
