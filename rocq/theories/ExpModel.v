(** Exponential of i times a hermitian matrix: src/new_types/su3_op.hpp:2878-3030, in exact real arithmetic.  The struct
    hermitian_exp_ingredients is made of three places in memory, [iQ], [iQ2] (matrices) and [f] (three complex numbers); its real
    numbers are values.  The local complex h0, h1, h2 are pairs. *)
From Coq Require Import Reals List.
From Coquelicot Require Import Complex.
From Verif Require Import CplxModel MatModel.
Open Scope R_scope.

(** su3_op.hpp:2920-2925: the coefficients for small c1 *)
Definition small_f (c0 c1 : R) : C * C * C :=
  ((1 - c0 * c0 / 720, - c0 * (1 - c1 * (1 - c1 / 42) / 20) / 6),
   (c0 * (1 - c1 * (1 - 3 * c1 / 112) / 15) / 24, 1 - c1 * (1 - c1 * (1 - c1 / 42) / 20) / 6 - c0 * c0 / 5040),
   (0.5 * (-1 + c1 * (1 - c1 * (1 - c1 / 56) / 30) / 12 + c0 * c0 / 20160), 0.5 * (c0 * (1 - c1 * (1 - c1 / 48) / 21) / 60))).
(** su3_op.hpp:2938-2944: eqs. 23-24 *)
Definition exp_theta (c0 c0_max : R) : R :=
  let eps := (c0_max - c0) / c0_max in
  if Rlt_dec eps 0 then 0
  else if Rlt_dec eps 1e-3 then sqrt (2 * eps) * (1 + (1 / 12 + (3 / 160 + (5 / 896 + (35 / 18432 + 63 / 90112 * eps) * eps) * eps) * eps) * eps)
  else acos (c0 / c0_max).
(** su3_op.hpp:2956-2961 *)
Definition exp_xi0 (w : R) : R :=
  if Rlt_dec (Rabs w) 0.05 then let temp0 := w * w in let temp1 := 1 - temp0 / 42 in let temp2 := 1 - temp0 / 20 * temp1 in 1 - temp0 / 6 * temp2
  else sin w / w.
(** su3_op.hpp:2945-2994: the coefficients from c0 (with its sign removed) and the other ones *)
Definition exp_h (u w xi0w : R) : C * C * C :=
  let u2 := u * u in let w2 := w * w in let u2mw2 := u2 - w2 in let w2p3u2 := w2 + 3 * u2 in let w2m3u2 := w2 - 3 * u2 in
  let cu := cos u in let c2u := cos (2 * u) in let su := sin u in let s2u := sin (2 * u) in let cw := cos w in
  ((u2mw2 * c2u + cu * 8 * u2 * cw + 2 * su * u * w2p3u2 * xi0w, u2mw2 * s2u + - su * 8 * u2 * cw + cu * 2 * u * w2p3u2 * xi0w),
   (2 * u * c2u + - cu * 2 * u * cw + - su * w2m3u2 * xi0w, 2 * u * s2u + su * 2 * u * cos w + - cu * w2m3u2 * xi0w),
   (c2u + - cu * cw + -3 * su * u * xi0w, s2u + su * cw + - cu * 3 * u * xi0w)).
Definition set_cplx (a : path) (z : C) : mem -> mem := set_re a (fst z);; set_im a (snd z).
Definition big_f (c0 c1 : R) (f : path) : mem -> mem :=
  (* su3_op.hpp:2917-2918: pow(c1/3,1.5), for positive c1 *)
  let c0_max := 2 * Rpower (c1 / 3) 1.5 in
  let sign := if Rlt_dec c0 0 then true else false in
  let c0 := if sign then - c0 else c0 in
  let theta := exp_theta c0 c0_max in
  let u := sqrt (c1 / 3) * cos (theta / 3) in
  let w := sqrt c1 * sin (theta / 3) in
  let '(h0, h1, h2) := exp_h u w (exp_xi0 w) in
  let fact := 1 / (9 * u * u - w * w) in
  set_cplx f@[0%nat] (fst h0 * fact, snd h0 * fact);;
  set_cplx f@[1%nat] (fst h1 * fact, snd h1 * fact);;
  set_cplx f@[2%nat] (fst h2 * fact, snd h2 * fact);;
  (if sign then
     (fun m => set_im f@[0%nat] (im m f@[0%nat] * -1) m);; (fun m => set_re f@[1%nat] (re m f@[1%nat] * -1) m);;
     (fun m => set_im f@[2%nat] (im m f@[2%nat] * -1) m)
   else fun m => m).

(** su3_op.hpp:2891-2996 *)
Definition prepareIngredients (iQ iQ2 f l : path) (m : mem) : mem :=
  let m := su3_copy iQ l m in
  let c0 := su3_real_det m iQ in
  let m := unsafe_su3_prod_su3 iQ2 iQ iQ NCOL m in
  let c1 := su3_real_trace m iQ2 / 2 in
  if Rlt_dec c1 4e-3 then
    let '(f0, f1, f2) := small_f c0 c1 in (set_cplx f@[0%nat] f0;; set_cplx f@[1%nat] f1;; set_cplx f@[2%nat] f2) m
  else big_f c0 c1 f m.
(** su3_op.hpp:3000-3009, 3011-3019, 3021-3030; [Q] is local to the last one *)
Definition safe_hermitian_exact_i_exponentiate_ing (out iQ iQ2 f : path) : mem -> mem :=
  su3_put_to_diag_complex out f@[0%nat];; su3_summ_the_prod_complex out iQ f@[1%nat];; su3_summ_the_prod_complex out iQ2 f@[2%nat].
Definition safe_hermitian_exact_i_exponentiate (out Q iQ iQ2 f : path) : mem -> mem :=
  prepareIngredients iQ iQ2 f Q;; safe_hermitian_exact_i_exponentiate_ing out iQ iQ2 f.
Definition safe_anti_hermitian_exact_exponentiate (out inp Q iQ iQ2 f : path) : mem -> mem :=
  su3_prod_idouble Q inp (-1);; safe_hermitian_exact_i_exponentiate out Q iQ iQ2 f.
