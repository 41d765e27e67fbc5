(** Gauge transformation of the configuration distributed among the ranks, and functional, derivative and quality of the Landau and Coulomb gauge
    fixing: src/operations/gauge_fixing.cpp.  Exact real arithmetic.  An entry which nobody has written is None.
    Simplifications: printing and timing are left out. *)
From Coq Require Import Reals.
From Coquelicot Require Import Complex.
From Verif Require Import Base GeometryModel GeoMiscModel HaloModel EoModel EoProofs ReduceModel StapleModel CplxModel MatModel MatSpec ExpModel GaugeModel.
From Verif Require ParModel.
Open Scope Z_scope.

(** a field of one matrix on each site *)
Definition mfield := Z -> option cmat.
Definition mat_put (s : mfield) (i : Z) (v : option cmat) : mfield := fun j => if j =? i then v else s j.
Definition to_mtable (m : Z -> mfield) (q : Z) : table (option cmat) := fun i => Some (m q i).
Definition of_mtable (t : table (option cmat)) : mfield := fun i => match t i with Some v => v | None => None end.

Section Gfix.
Context (g : grid) (ord : Z -> nat -> nat -> nat -> Z -> Z -> list Z) (surf_sched : Z -> list Z).
Notation qf := (@qfield cmat).

(** gauge_fixing.cpp:38-50: the loop on the directions of one site.  [uin] is None when it is the same field as uout.
    unsafe_su3_prod_su3_dag(temp,uin,g[up]); unsafe_su3_prod_su3(uout,g[ivol],temp) *)
Definition transform_site (r : Z) (gm : mfield) (uin : option qf) (ivol : Z) (uout : qf) : qf :=
  fold_left (fun u mu =>
    let here := match uin with Some w => w ivol mu | None => u ivol mu end in
    match nb g r ivol mu with
    | Some up => link_put u ivol mu (op2 su3_prod (gm ivol) (op2 su3_prod_dag here (gm up)))
    | None => u
    end) dirs uout.
(** gauge_fixing.cpp:26-53  gauge_transform_conf(uout,g,uin), lx version: the conf and the transformation after *)
Definition gauge_transform_conf (uout : Z -> qf) (gm : Z -> mfield) (uin : option (Z -> qf)) (r : Z) : option (qf * mfield) :=
  match updateHalo g surf_sched (to_mtable gm) r with
  | Some t => Some (PAR ord r 20 0 0 0 (locVol g) (transform_site r (of_mtable t) (option_map (fun u => u r) uin)) (uout r), of_mtable t)
  | None => None
  end.

(** gauge_fixing.cpp:56-77: the same for one site of the parity [par]; the loop on the parities is inside *)
Definition transform_site_eo (r par : Z) (g_other g_this : mfield) (uin : option qf) (ivol : Z) (uout : qf) : qf :=
  fold_left (fun u mu =>
    let here := match uin with Some w => w ivol mu | None => u ivol mu end in
    match loceo_neigh g (coordOfRank g r) (rank_labels g r) (rank_eo g r) true mu par ivol with
    | Some up => link_put u ivol mu (op2 su3_prod (g_this ivol) (op2 su3_prod_dag here (g_other up)))
    | None => u
    end) dirs uout.
Definition gauge_transform_conf_eo (uout : Z -> Z -> qf) (gm : Z -> Z -> mfield) (uin : option (Z -> Z -> qf)) (r : Z) : option (Z -> qf) :=
  match updateHaloEo g surf_sched 0 (fun q => to_mtable (fun q => gm q 0) q) r, updateHaloEo g surf_sched 1 (fun q => to_mtable (fun q => gm q 1) q) r with
  | Some t0, Some t1 =>
      let gs := fun p : Z => if p =? 0 then of_mtable t0 else of_mtable t1 in
      Some (fun p => PAR ord r 21 (Z.to_nat p) 0 0 (locVolh g) (transform_site_eo r p (gs (1 - p)) (gs p) (option_map (fun u => u r p) uin)) (uout r p))
  | _, _ => None
  end.

(** gauge_fixing.cpp:165-181  compute_Landau_or_Coulomb_functional_der.  su3_summassign, su3_summassign_su3_dag *)
Definition loop_mu (start_mu : nat) : list nat := seq start_mu (4 - start_mu).
Definition dw (r : Z) (A : Z) (mu : nat) : option Z := loclxNeigh g (coordOfRank g r) (rank_labels g r) false A mu.
Definition functional_der (r : Z) (conf : qf) (ivol : Z) (start_mu : nat) : option cmat :=
  fold_left (fun out mu => match dw r ivol mu with
    | Some b => op2 (fun x y => call1 su3_summassign_su3_dag x y) (op2 su3_sum out (conf ivol mu)) (conf b mu)
    | None => None end) (loop_mu start_mu) (Some (mat (su3_put_to_zero a_out (args mid mid mid)) a_out)).
(** gauge_fixing.cpp:600-611: the derivative of the exponentiating method.  [w]: der before *)
Definition der_site (r : Z) (conf : qf) (start_mu : nat) (w : cmat) (ivol : Z) : option cmat :=
  option_map (call1 unsafe_su3_traceless_anti_hermitian_part w) (functional_der r conf ivol start_mu).
Definition compute_der (conf : Z -> qf) (start_mu : nat) (w : Z -> cmat) (r : Z) : option mfield :=
  match updateHalo g surf_sched (to_table conf) r with
  | Some t => Some (PAR ord r 22 0 0 0 (locVol g) (fun i s => mat_put s i (der_site r (of_table t) start_mu (w i) i)) (fun i => Some (w i)))
  | None => None
  end.
(** gauge_fixing.cpp:233-245: the quality at one site *)
Definition quality_site (r : Z) (conf : qf) (start_mu : nat) (w : cmat) (ivol : Z) : option R :=
  let delta := fold_left (fun d mu => match dw r ivol mu with
    | Some b => op2 su3_sum (op2 (call1 su3_subtassign) d (conf ivol mu)) (conf b mu)
    | None => None end) (loop_mu start_mu) (Some (fun _ _ => RtoC 0)) in
  option_map (fun d => (4 * su3_norm2 (args (call1 unsafe_su3_traceless_anti_hermitian_part w d) w w) a_out)%R) delta.
(** gauge_fixing.cpp:221-252; [ix] the address of the sites of loc_omega *)
Definition gauge_fixing_quality (bk : Z -> ParModel.backend) (ix : Z -> Z -> Z) (conf : Z -> qf) (start_mu : nat) (w : cmat) (res : R) : Prop :=
  exists (confs : Z -> qf) (loc_omega : Z -> ParModel.mem R) (omega : Z -> R),
    (forall r, 0 <= r < nranks g -> option_map of_table (updateHalo g surf_sched (to_table conf) r) = Some (confs r)) /\
    (forall r ivol, 0 <= r < nranks g -> 0 <= ivol < locVol g -> quality_site r (confs r) start_mu w ivol = Some (loc_omega r (ix ivol 0))) /\
    field_reduce bk Rplus ix 1 (locVol g) (map loc_omega (seqZ (nranks g))) omega /\
    res = (omega 0%Z / IZR (glbVol g) / INR NCOL)%R.
(** gauge_fixing.cpp:196-206 and 208-216: the functional, with the values to be subtracted on each site *)
Definition locF_site (conf : qf) (start_mu : nat) (ivol : Z) : option R :=
  fold_left (fun F mu => match F, conf ivol mu with Some F, Some U => Some (F - su3_real_trace (args U U U) a_out)%R | _, _ => None end) (loop_mu start_mu) (Some 0%R).
Definition compute_functional (bk : Z -> ParModel.backend) (ix : Z -> Z -> Z) (conf : Z -> qf) (start_mu : nat) (offsetF : option (Z -> Z -> R)) (F : R) : Prop :=
  exists (locF : Z -> ParModel.mem R) (out : Z -> R),
    (forall r ivol, 0 <= r < nranks g -> 0 <= ivol < locVol g -> exists v, locF_site (conf r) start_mu ivol = Some v /\
       locF r (ix ivol 0) = (v - match offsetF with Some o => o r ivol | None => 0%R end)%R) /\
    field_reduce bk Rplus ix 1 (locVol g) (map locF (seqZ (nranks g))) out /\ F = out 0.
End Gfix.

(** gauge_fixing.cpp:401-415  exp_der_alpha_half at one site: su3_prod_double(temp,der,-0.5*alpha); safe_anti_hermitian_exact_exponentiate(g,temp) *)
Definition exp_der_alpha_half (der : cmat) (alpha : R) : cmat :=
  mat ((su3_prod_double a_y a_x (- 0.5 * alpha);; safe_anti_hermitian_exact_exponentiate a_out a_y [3%nat] [4%nat] [5%nat] [0; 6]%nat)
       (args mid der mid)) a_out.
(** gauge_fixing.cpp:418-430  add_current_transformation at one site: safe_su3_prod_su3(fixer_out,g,fixer_in) *)
Definition add_current_transformation (gm fixer_in : cmat) : cmat := call2 (fun o x y => safe_su3_prod_su3 o x y [3%nat]) gm fixer_in.
