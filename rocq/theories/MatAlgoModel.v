(** Cooling, overrelaxation and projection of links: src/new_types/su3_op.hpp and su3_op.cpp, in exact real arithmetic.  Local
    variables are paths given as last arguments, as in MatModel: [prod], [U] (matrices), [md] and [row] (of su2_prodassign_su3). *)
From Coq Require Import Reals List Bool.
From Coquelicot Require Import Complex.
From Verif Require Import CplxModel MatModel.
Open Scope R_scope.

(** the four components returned by su2_part_of_su3 *)
Definition su2_part (m : mem) (inp : path) (isub_gr : nat) : R * R * R * R := fst (su2_part_of_su3 m inp isub_gr).

(** su3_op.hpp:1484-1503 *)
Definition maximal_trace_iteration_slow (U M prod md row : path) : mem -> mem :=
  for_cols (fun isub_gr =>
    unsafe_su3_prod_su3_dag prod U M NCOL;;
    (fun m => su2_prodassign_su3 (su2_inv (su2_part m prod isub_gr)) isub_gr U md row m)).

(** su3_op.hpp:1507-1530: the memory after, in which the value returned is su3_real_trace of prod *)
Definition maximal_trace_iteration (U M prod md row : path) : mem -> mem :=
  unsafe_su3_prod_su3_dag prod U M NCOL;;
  for_cols (fun isub_gr m =>
    let q := su2_inv (su2_part m prod isub_gr) in
    (su2_prodassign_su3 q isub_gr U md row;; su2_prodassign_su3 q isub_gr prod md row) m).
Definition maximal_trace_iteration_ret (m : mem) (prod : path) : R := su3_real_trace m prod.

(** su3_op.cpp:131-160 *)
Fixpoint repeat_op (n : nat) (f : mem -> mem) (m : mem) : mem := match n with O => m | S k => repeat_op k f (f m) end.
Definition su3_find_overrelaxed (out inp staple : path) (nov_hits : nat) (prod md row : path) : mem -> mem :=
  unsafe_su3_prod_su3_dag prod inp staple NCOL;;
  (if path_dec out inp then fun m => m else su3_copy out inp);;
  repeat_op nov_hits (for_cols (fun isub_gr m =>
    let q := su2_get_overrelaxing (su2_part m prod isub_gr) in
    (su2_prodassign_su3 q isub_gr prod md row;; su2_prodassign_su3 q isub_gr out md row) m)).

(** su3_op.cpp:54-117.  One pass over overrelax and isub_gr: what is carried along is the memory, rotating_norm and converged *)
Definition mt_step (precision : R) (iter : nat) (U prod md row : path) (s : mem * R * bool) (oi : nat * nat) : mem * R * bool :=
  let '(m, rot, conv) := s in let (overrelax, isub_gr) := oi in
  let r := su2_part m prod isub_gr in
  let x := if Nat.eqb overrelax 0 then su2_inv r else su2_get_overrelaxing r in
  let m := (su2_prodassign_su3 x isub_gr U md row;; su2_prodassign_su3 x isub_gr prod md row) m in
  let rot := if Nat.eqb overrelax 0 then sqrt (su2_nonunitarity x) else rot in
  (m, rot, conv && (Nat.leb 3 iter && if Rlt_dec rot precision then true else false)).
Definition mt_pass (precision : R) (iter : nat) (U prod md row : path) (m : mem) (rot : R) : mem * R * bool :=
  fold_left (mt_step precision iter U prod md row) (list_prod (seq 0 3) (seq 0 NCOL)) (m, rot, true).
(** how the do-while loop ends: with the memory, with CRASH, or not within the given number of passes.  [refix] stands for
    su3_unitarize_explicitly_inverting(U,U) (su3_op.hpp:1409-1450) *)
Inductive outcome := Ret (m : mem) | Crash | Timeout.
Fixpoint mt_loop (fuel : nat) (refix : mem -> mem) (precision : R) (niter_max : nat) (M U prod md row : path) (iter : nat) (rot : R)
  (m : mem) : outcome :=
  match fuel with O => Timeout | S fuel =>
    let '(m, rot, conv) := mt_pass precision iter U prod md row m rot in
    let iter := S iter in
    let m := if Rlt_dec rot (sqrt precision) then
               if Rlt_dec 1e-15 (su3_get_non_unitariness m U) then (refix;; unsafe_su3_prod_su3_dag prod U M NCOL) m else m
             else m in
    if (if Rlt_dec (INR niter_max * 0.9) (INR iter) then Nat.ltb niter_max iter else false) then Crash
    else if conv then Ret m else mt_loop fuel refix precision niter_max M U prod md row iter rot m
  end.
Definition su3_unitarize_maximal_trace_projecting (fuel : nat) (refix : mem -> mem) (precision : R) (niter_max : nat)
  (out M U prod md row : path) (m : mem) : outcome :=
  let m := (su3_put_to_id U;; unsafe_su3_prod_su3_dag prod U M NCOL) m in
  match mt_loop fuel refix precision niter_max M U prod md row 0 1e300 m with Ret m => Ret (su3_copy out U m) | r => r end.
