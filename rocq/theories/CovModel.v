(** Covariant shifts, Laplace operators and symmetric derivative: src/operations/covariant_derivative.cpp:58-185, and the gaussian smearing: src/operations/smearing/gaussian.hpp:13-105, 157-170,
    for the type spincolor; the products with a link: src/new_types/su3_op.hpp (spincolor routines at 1842-1848, 2007-2071).
    Exact real arithmetic; memory of fields, simplifications and order of the sites as in TmModel: the halo is not repeated (C10), each parallel loop visits the sites in an arbitrary order
    [sched l].  The loops of FOR_EACH_SITE_DEG_OF_FIELD, which act on each component alone, are loops on the sites. *)
From Coq Require Import Reals List ZArith.
From Coquelicot Require Import Complex.
From Verif Require Import DiracModel TmModel.
Import ListNotations.
Open Scope C_scope.

(** su3_op.hpp:1575-1590: su3_summ_the_prod_color *)
Definition su3_summ_the_prod_color (a : color) (b : su3) (c : color) : color :=
  fun ic => a ic + b ic 0%nat * c 0%nat + b ic 1%nat * c 1%nat + b ic 2%nat * c 2%nat.
(** su3_op.hpp:1612-1619 *)
Definition su3_dag_summ_the_prod_color (a : color) (b : su3) (c : color) : color :=
  fun ic => a ic + Cconj (b 0%nat ic) * c 0%nat + Cconj (b 1%nat ic) * c 1%nat + Cconj (b 2%nat ic) * c 2%nat.
(** su3_op.hpp:1639-1646 *)
Definition su3_dag_subt_the_prod_color (a : color) (b : su3) (c : color) : color :=
  fun ic => a ic - Cconj (b 0%nat ic) * c 0%nat - Cconj (b 1%nat ic) * c 1%nat - Cconj (b 2%nat ic) * c 2%nat.
(** su3_op.hpp:2007-2013 *)
Definition unsafe_su3_prod_spincolor (U : su3) (c : spincolor) : spincolor := fun id => unsafe_su3_prod_color U (c id).
(** su3_op.hpp:2019-2025 *)
Definition su3_summ_the_prod_spincolor (a : spincolor) (U : su3) (c : spincolor) : spincolor := fun id => su3_summ_the_prod_color (a id) U (c id).
(** su3_op.hpp:2053-2059 *)
Definition su3_dag_summ_the_prod_spincolor (a : spincolor) (U : su3) (c : spincolor) : spincolor := fun id => su3_dag_summ_the_prod_color (a id) U (c id).
(** su3_op.hpp:2065-2071 *)
Definition su3_dag_subt_the_prod_spincolor (a : spincolor) (U : su3) (c : spincolor) : spincolor := fun id => su3_dag_subt_the_prod_color (a id) U (c id).
(** su3_op.hpp:365-371, 1842-1848 *)
Definition spincolor_summ_the_prod_double (a b : spincolor) (c : R) : spincolor := fun id ic => a id ic + b id ic * c.

Section S.
Variable sched : nat -> list nat.
Variables nup ndw : nat -> nat -> nat.
Variable conf : nat -> nat -> su3.
(** base/field.hpp:808-817 *)
Definition field_reset (l out : nat) : smem -> smem := PARs (sched l) (fun X => spincolor_put_to_zero out X).
(** base/field.hpp:1389-1440: out=in *)
Definition field_assign (l out inp : nat) : smem -> smem := PARs (sched l) (fun X m => wr out X (m inp X) m).
(** base/field.hpp: operator+= and operator*= (C46) *)
Definition field_summassign (l out inp : nat) : smem -> smem := PARs (sched l) (fun X m => wr out X (fun id ic => m out X id ic + m inp X id ic) m).
Definition field_prodassign (l out : nat) (r : R) : smem -> smem := PARs (sched l) (fun X m => wr out X (fun id ic => m out X id ic * r) m).

(** covariant_derivative.cpp:58-76 *)
Definition cshift_bw (l out mu inp : nat) (reset_first : bool) : smem -> smem :=
  PARs (sched l) (fun X m =>
    let m := if reset_first then spincolor_put_to_zero out X m else m in
    wr out X (su3_summ_the_prod_spincolor (m out X) (conf X mu) (m inp (nup X mu))) m).
(** covariant_derivative.cpp:79-97 *)
Definition cshift_fw (l out mu inp : nat) (reset_first : bool) : smem -> smem :=
  PARs (sched l) (fun X m =>
    let m := if reset_first then spincolor_put_to_zero out X m else m in
    wr out X (su3_dag_summ_the_prod_spincolor (m out X) (conf (ndw X mu) mu) (m inp (ndw X mu))) m).
Definition ndirs_of (dirs : nat -> bool) : nat := fold_left (fun n mu => if dirs mu then S n else n) (seq 0 4) 0%nat.
(** covariant_derivative.cpp:101-131; [temp]: the field allocated at 106.  The loops have the orders sched (l+8*mu), ... *)
Definition Laplace_operator_2_links (l out temp : nat) (dirs : nat -> bool) (inp : nat) (m : smem) : smem :=
  let m := field_reset l out m in
  let m := fold_left (fun m mu => if dirs mu then
      let m := cshift_bw (l + 4 * mu + 1) temp mu inp true m in
      let m := cshift_bw (l + 4 * mu + 2) out mu temp false m in
      let m := cshift_fw (l + 4 * mu + 3) temp mu inp true m in
      cshift_fw (l + 4 * mu + 4) out mu temp false m else m) (seq 0 4) m in
  PARs (sched (l + 17)%nat) (fun X m => wr out X (fun id ic => m out X id ic * 0.25%R - INR (ndirs_of dirs) * m inp X id ic / 2%R) m) m.
(** covariant_derivative.cpp:134-159 *)
Definition Laplace_operator (l out : nat) (dirs : nat -> bool) (inp : nat) (m : smem) : smem :=
  let m := field_reset l out m in
  let m := fold_left (fun m mu => if dirs mu then
      let m := cshift_bw (l + 2 * mu + 1) out mu inp false m in
      cshift_fw (l + 2 * mu + 2) out mu inp false m else m) (seq 0 4) m in
  PARs (sched (l + 9)%nat) (fun X m => wr out X (fun id ic => m out X id ic - 2%R * INR (ndirs_of dirs) * m inp X id ic) m) m.
(** covariant_derivative.cpp:161-185.  [time]: glbCoordOfLoclx[ix][0]; [temp]: the field allocated at 172 *)
Definition apply_nabla_i (time : nat -> Z) (l out temp inp mu : nat) (t : Z) (m : smem) : smem :=
  let m := field_reset l temp m in
  let m := PARs (sched (l + 1)%nat) (fun X m =>
    if ((t =? -1)%Z || (time X =? t)%Z)%bool then
      let m := wr temp X (unsafe_su3_prod_spincolor (conf X mu) (m inp (nup X mu))) m in
      wr temp X (su3_dag_subt_the_prod_spincolor (m temp X) (conf (ndw X mu) mu) (m inp (ndw X mu))) m
    else m) m in
  field_assign (l + 2) out temp m.

(** gaussian.hpp:14-40 *)
Definition gaussian_smearing_apply_kappa_H (l H : nat) (kappa : nat -> R) (inp : nat) (m : smem) : smem :=
  let m := field_reset l H m in
  PARs (sched (l + 1)%nat) (fun X m =>
    fold_left (fun m mu =>
      let temp := unsafe_su3_prod_spincolor (conf X mu) (m inp (nup X mu)) in
      let temp := su3_dag_summ_the_prod_spincolor temp (conf (ndw X mu) mu) (m inp (ndw X mu)) in
      wr H X (spincolor_summ_the_prod_double (m H X) temp (kappa mu)) m) (seq 1 3) m) m.
(** gaussian.hpp:74-86: one iteration *)
Definition gaussian_iteration (l temp H : nat) (kappa : nat -> R) (norm_fact : R) (m : smem) : smem :=
  let m := gaussian_smearing_apply_kappa_H l H kappa temp m in
  let m := field_summassign (l + 2) temp H m in
  field_prodassign (l + 3) temp norm_fact m.
(** gaussian.hpp:43-96; [temp] and [H]: the fields given or allocated *)
Definition gaussian_smearing (l smear_sc origi_sc temp H : nat) (kappa : nat -> R) (niter : Z) (m : smem) : smem :=
  if (niter <? 1)%Z then (if negb (Nat.eqb smear_sc origi_sc) then field_assign l smear_sc origi_sc m else m)
  else
    let norm_fact := (1 / (1 + 2 * (kappa 1%nat + kappa 2%nat + kappa 3%nat)))%R in
    let m := field_assign l temp origi_sc m in
    let m := fold_left (fun m iter => gaussian_iteration (l + 2 + 4 * iter) temp H kappa norm_fact m) (seq 0 (Z.to_nat niter)) m in
    field_assign (l + 1) smear_sc temp m.
(** gaussian.hpp:157-170 *)
Definition gaussian_smearing_iso (l smear_sc origi_sc temp H : nat) (kappa_iso : R) (niter : Z) : smem -> smem :=
  gaussian_smearing l smear_sc origi_sc temp H (fun mu => if Nat.eqb mu 0 then 0%R else kappa_iso) niter.
End S.
