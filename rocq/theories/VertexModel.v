(** Insertion of a vector vertex in a spincolor: src/operations/covariant_derivative.cpp:200-399 (tadpole, external source, conserved current, for Wilson and twisted mass quarks);
    spincolor routines of src/new_types/su3_op.hpp at 1799-1823, 1917-1921, 1953-1959, 2038-2044.
    Exact real arithmetic; fields, loops and halo as in CovModel.  The function given by the caller, get_curr(out,ivol,mu), is a function of the site and of the direction.  Momentum and complex are values. *)
From Coq Require Import Reals List ZArith.
From Coquelicot Require Import Complex.
From Verif Require Import DiracModel TmModel CovModel.
Import ListNotations.
Open Scope C_scope.

(** su3_op.hpp:1799-1815 *)
Definition spincolor_summ (b c : spincolor) : spincolor := fun id => color_summ (b id) (c id).
(** su3_op.hpp:1818-1822 *)
Definition spincolor_subt (b c : spincolor) : spincolor := fun id => color_subt (b id) (c id).
(** su3_op.hpp:1917-1921 *)
Definition spincolor_prodassign_complex (a : spincolor) (factor : C) : spincolor := fun id ic => a id ic * factor.
(** su3_op.hpp:1953-1959 *)
Definition unsafe_dirac_prod_spincolor (d : dirac_matr) (inp : spincolor) : spincolor := fun id ic => inp (pos d id) ic * entr d id.
(** su3_op.hpp:2038-2044 *)
Definition unsafe_su3_dag_prod_spincolor (U : su3) (inp : spincolor) : spincolor := fun id => unsafe_su3_dag_prod_color U (inp id).
(** dirac.cpp: tau3 *)
Definition tau3_tab (r : nat) : R := (nth r [-1; 1] 0)%R.

Section S.
Variable sched : nat -> list nat.
Variables nup ndw : nat -> nat -> nat.
Variable conf : nat -> nat -> su3.
Variable junk : dirac_matr.
(** glbCoordOfLoclx[ivol][0] *)
Variable time : nat -> Z.
(** covariant_derivative.cpp:203: DEF_TM_GAMMA *)
Definition tm_GAMMA (r : nat) : dirac_matr := dirac_prod_idouble junk (base_gamma junk 5) (- tau3_tab r).
(** covariant_derivative.cpp:209-266 *)
Definition insert_vector_vertex (l out inp : nat) (fact_fw fact_bw : C) (GAMMA : dirac_matr) (get_curr : nat -> nat -> C) (t : Z) (m : smem) : smem :=
  let m := field_reset sched l out m in
  PARs (sched (l + 1)%nat) (fun ivol m =>
    if ((t =? -1)%Z || (time ivol =? t)%Z)%bool then
      fold_left (fun m mu =>
        let ifw := nup ivol mu in
        let ibw := ndw ivol mu in
        let fw := unsafe_su3_prod_spincolor (conf ivol mu) (m inp ifw) in
        let bw := unsafe_su3_dag_prod_spincolor (conf ibw mu) (m inp ibw) in
        let fw := spincolor_prodassign_complex fw fact_fw in
        let bw := spincolor_prodassign_complex bw fact_bw in
        let fw := spincolor_prodassign_complex fw (get_curr ivol mu) in
        let bw := spincolor_prodassign_complex bw (get_curr ibw mu) in
        let bw_M_fw := spincolor_subt bw fw in
        let bw_P_fw := spincolor_summ bw fw in
        let GAMMA_bw_P_fw := unsafe_dirac_prod_spincolor GAMMA bw_P_fw in
        let m := wr out ivol (spincolor_summ (m out ivol) GAMMA_bw_P_fw) m in
        let gmu_bw_M_fw := unsafe_dirac_prod_spincolor (base_gamma junk (iGammaOfMu mu)) bw_M_fw in
        wr out ivol (spincolor_summ (m out ivol) gmu_bw_M_fw) m) (seq 0 4) m
    else m) m.
(** covariant_derivative.cpp:269-288 *)
Definition insert_tadpole (l out inp : nat) (GAMMA : dirac_matr) (tad : nat -> R) (t : Z) : smem -> smem :=
  insert_vector_vertex l out inp (RtoC (- (1 / 4))) (RtoC (- (1 / 4))) GAMMA (fun ivol mu => RtoC (tad mu)) t.
(** covariant_derivative.cpp:290-308 *)
Definition insert_Wilson_tadpole (l out inp : nat) (tad : nat -> R) (t : Z) : smem -> smem := insert_tadpole l out inp (base_gamma junk 0) tad t.
Definition insert_tm_tadpole (l out inp r : nat) (tad : nat -> R) (t : Z) : smem -> smem := insert_tadpole l out inp (tm_GAMMA r) tad t.
(** covariant_derivative.cpp:311-338 *)
Definition insert_external_source (l out : nat) (curr : nat -> nat -> C) (inp : nat) (GAMMA : dirac_matr) (dirs : nat -> bool) (t : Z) : smem -> smem :=
  insert_vector_vertex l out inp (0, - (1 / 2))%R (0, 1 / 2)%R GAMMA (fun ivol mu => if negb (dirs mu) then RtoC 0 else curr ivol mu) t.
(** covariant_derivative.cpp:340-360 *)
Definition insert_Wilson_external_source (l out : nat) (curr : nat -> nat -> C) (inp : nat) (dirs : nat -> bool) (t : Z) : smem -> smem :=
  insert_external_source l out curr inp (base_gamma junk 0) dirs t.
Definition insert_tm_external_source (l out : nat) (curr : nat -> nat -> C) (inp r : nat) (dirs : nat -> bool) (t : Z) : smem -> smem :=
  insert_external_source l out curr inp (tm_GAMMA r) dirs t.
(** covariant_derivative.cpp:382-403 *)
Definition insert_conserved_current (l out inp : nat) (GAMMA : dirac_matr) (dirs : nat -> bool) (t : Z) : smem -> smem :=
  insert_vector_vertex l out inp (RtoC (- (1 / 2))) (RtoC (1 / 2)) GAMMA (fun ivol mu => RtoC (if dirs mu then 1 else 0)) t.
(** covariant_derivative.cpp:405-424 *)
Definition insert_Wilson_conserved_current (l out inp : nat) (dirs : nat -> bool) (t : Z) : smem -> smem := insert_conserved_current l out inp (base_gamma junk 0) dirs t.
Definition insert_tm_conserved_current (l out inp r : nat) (dirs : nat -> bool) (t : Z) : smem -> smem := insert_conserved_current l out inp (tm_GAMMA r) dirs t.
End S.
