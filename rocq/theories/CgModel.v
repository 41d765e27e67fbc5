(** Conjugate gradient: src/inverters/templates/cg_invert_template_threaded.hpp and cgm_invert_template_threaded.hpp, and the solvers of the
    staggered operator built on them (src/inverters/staggered).  Exact real arithmetic.  A field is the list of its N real degrees of freedom on
    all the ranks, on which FOR_EACH_SITE_DEG_OF_FIELD acts independently, and norm2 and realPartOfScalarProdWith are sums on them; f(s,p) puts in
    s the value [f p].  The source, the solution and the guess are different objects.  Timings and printing are left out.
    Divisions: 0/0 is a nan, which the checks of the code turn into a CRASH in the same iteration or in the next one; x/0 is an infinity, which
    enters the fields and makes a nan of the next scalar products, that cannot end the loop but with a CRASH when niter is positive: both are [None]. *)
From Coq Require Import Reals List ZArith.
Import ListNotations.
Open Scope R_scope.

Definition rvec := nat -> R.
Fixpoint rsum (n : nat) (f : nat -> R) : R := match n with O => 0 | S k => rsum k f + f k end.

Section Solver.
Variable N : nat.
(** base/field.hpp: norm2 and realPartOfScalarProdWith *)
Definition rdot (u v : rvec) : R := rsum N (fun i => u i * v i).
Definition vnorm2 (u : rvec) : R := rdot u u.

(** ** cg_invert_template_threaded.hpp *)
Section Cg.
Variables (f : rvec -> rvec) (niter : Z) (residue : R) (source : rvec).
Record cg_state := CG { c_sol : rvec; c_r : rvec; c_p : rvec; c_delta : R; c_lambda : R; c_iter : Z }.
(** lines 63-128, one iteration *)
Definition cg_iteration (st : cg_state) : option cg_state :=
  let iter := (c_iter st + 1)%Z in
  let s := f (c_p st) in
  let alpha := rdot s (c_p st) in
  if Req_EM_T alpha 0 then None else
  let omega := c_delta st / alpha in
  let sol := fun i => c_sol st i + c_p st i * omega in
  let r := fun i => c_r st i - s i * omega in
  let lambda := vnorm2 r in
  if Req_EM_T (c_delta st) 0 then None else
  let gammag := lambda / c_delta st in
  let p := fun i => r i + c_p st i * gammag in
  Some (CG sol r p lambda lambda iter).
(** lines 58-129: do ... while(lambda>=(residue*sourceNorm2) and iter<niter); [fuel] counts the iterations left, and is never exhausted *)
Fixpoint cg_loop (fuel : nat) (st : cg_state) : option cg_state :=
  match cg_iteration st with
  | None => None
  | Some st =>
    if Rle_dec (residue * vnorm2 source) (c_lambda st) then
      if (c_iter st <? niter)%Z then match fuel with O => None | S k => cg_loop k st end else Some st
    else Some st
  end.
(** lines 17-150; the second f(s,sol) of lines 131-141 is only printed; None is CRASH *)
Definition cg_invert (guess : option rvec) : option rvec :=
  let sol := match guess with Some g => g | None => fun _ => 0 end in
  let sourceNorm2 := vnorm2 source in
  let r := fun i => source i - f sol i in
  let p := r in
  let delta := vnorm2 r in
  if Req_EM_T sourceNorm2 0 then None else
  match cg_loop (Z.to_nat niter) (CG sol r p delta 0 0) with
  | None => None
  | Some st => if (c_iter st =? niter)%Z then None else Some (c_sol st)
  end.
End Cg.

(** ** cgm_invert_template_threaded.hpp *)
Section Cgm.
Variables (f : R -> rvec -> rvec) (niter_max : Z) (source : rvec).
(** what the routine keeps for one shift: the shift, the residue required, sol, ps, zps, zas, zfs, betas, run_flag and final_res *)
Record sh := SH { shift : R; residue_of : R; h_sol : rvec; h_ps : rvec; zps : R; zas : R; zfs : R; betas : R; run_flag : bool; final_res : R }.
Record cgm_state := CGM { m_r : rvec; m_p : rvec; betaa : R; m_alpha : R; m_rr : R; m_sh : list sh; m_iter : Z }.
(** lines 33-41 and 66-80 *)
Definition sh_init (sr : R * R) : sh := SH (fst sr) (snd sr) (fun _ => 0) source 1 1 0 0 true 0.
(** lines 125-158: coefficients and solution of a running shift; None is the CRASH *)
Definition sh_first (betaa betap alpha : R) (h : sh) : option sh :=
  if run_flag h then
    let den := betaa * alpha * (1 - zas h / zps h) + betap * (1 - shift h * betaa) in
    if Req_EM_T (zps h) 0 then None else if Req_EM_T den 0 then None else
    let ratio := betap / den in
    let zf := zas h * ratio in let bs := betaa * ratio in
    Some (SH (shift h) (residue_of h) (fun i => h_sol h i - bs * h_ps h i) (h_ps h) (zps h) (zas h) zf bs (run_flag h) (final_res h))
  else Some h.
(** lines 201-228: search direction of a running shift *)
Definition sh_second (betaa alpha : R) (r : rvec) (h : sh) : option sh :=
  if run_flag h then
    if Req_EM_T (zas h * betaa) 0 then None else
    let alphas := alpha * zfs h * betas h / (zas h * betaa) in
    Some (SH (shift h) (residue_of h) (h_sol h) (fun i => r i * zfs h + h_ps h i * alphas) (zas h) (zfs h) (zfs h) (betas h) (run_flag h) (final_res h))
  else Some h.
(** lines 237-252: stop of the shift *)
Definition sh_check (rr source_norm2 : R) (h : sh) : sh :=
  if run_flag h then
    let res := rr * zfs h * zfs h / source_norm2 in
    SH (shift h) (residue_of h) (h_sol h) (h_ps h) (zps h) (zas h) (zfs h) (betas h) (if Rlt_dec res (residue_of h) then false else run_flag h) res
  else h.
Fixpoint all_some {A B} (g : A -> option B) (l : list A) : option (list B) :=
  match l with [] => Some [] | x :: l => match g x, all_some g l with Some y, Some l' => Some (y :: l') | _, _ => None end end.
(** lines 95-259; with one shift of rr and betaa at each iteration; nrun_shift counts the shifts with run_flag *)
Definition cgm_iteration (st : cgm_state) : option cgm_state :=
  let iter := (m_iter st + 1)%Z in
  let s := f 0 (m_p st) in
  let pap := rdot (m_p st) s in
  let betap := betaa st in
  if Req_EM_T pap 0 then None else
  let betaa := - m_rr st / pap in
  match all_some (sh_first betaa betap (m_alpha st)) (m_sh st) with None => None | Some hs =>
  let r := fun i => m_r st i + s i * betaa in
  let rfrf := vnorm2 r in
  if Req_EM_T (m_rr st) 0 then None else
  let alpha := rfrf / m_rr st in
  let p := fun i => r i + m_p st i * alpha in
  match all_some (sh_second betaa alpha r) hs with None => None | Some hs =>
  Some (CGM r p betaa alpha rfrf (map (sh_check rfrf (vnorm2 source)) hs) iter) end end.
Definition running (st : cgm_state) : bool := existsb run_flag (m_sh st).
(** line 260: do ... while(nrun_shift>0 and iter<niter_max) *)
Fixpoint cgm_loop (fuel : nat) (st : cgm_state) : option cgm_state :=
  match cgm_iteration st with
  | None => None
  | Some st => if andb (running st) (m_iter st <? niter_max)%Z then match fuel with O => None | S k => cgm_loop k st end else Some st
  end.
(** lines 11-287; the true residues of lines 265-279 are only printed; [shifts] gives each shift with the residue required for it; the solutions in the same order, None is CRASH *)
Definition cgm_invert (shifts : list (R * R)) : option (list rvec) :=
  let source_norm2 := vnorm2 source in
  if Req_EM_T source_norm2 0 then None else
  match cgm_loop (Z.to_nat niter_max) (CGM source source 1 0 source_norm2 (map sh_init shifts) 0) with
  | None => None
  | Some st => if (m_iter st =? niter_max)%Z then None else Some (map h_sol (m_sh st))
  end.
End Cgm.
End Solver.
