(** Plaquette, Wilson action and Wilson force of the configuration distributed among the ranks: src/operations/su3_paths/plaquette.hpp (lx version),
    src/hmc/gauge/Wilson_action.hpp, src/hmc/gauge/Wilson_force.cpp and src/hmc/gauge/gluonic_force.cpp.  Exact real arithmetic.
    The routines on matrices are those of MatModel, executed on a memory where the arguments have been put.
    An entry which nobody has written is None, and so is what is computed from it.
    Simplifications: printing, timing and the debugging code of gluonic_force.cpp are left out. *)
From Coq Require Import Reals.
From Coquelicot Require Import Complex.
From Verif Require Import Base GeometryModel GeoMiscModel HaloModel ReduceModel StapleModel CplxModel MatModel MatSpec.
From Verif Require ParModel.
Open Scope Z_scope.

(** the objects given to a routine: the result (whose previous content is w) and its arguments *)
Definition a_out : path := [0%nat].
Definition a_x : path := [1%nat].
Definition a_y : path := [2%nat].
Definition args (w x y : cmat) : CplxModel.mem := fun p => match p with
  | [j; i; 0%nat] => w i j | [j; i; 1%nat] => x i j | [j; i; 2%nat] => y i j | _ => RtoC 0 end.
(** routine(out,x,y) *)
Definition call2 (routine : path -> path -> path -> CplxModel.mem -> CplxModel.mem) (x y : cmat) : cmat :=
  mat (routine a_out a_x a_y (args (fun _ _ => RtoC 0) x y)) a_out.
(** routine(out,x), with out already used *)
Definition call1 (routine : path -> path -> CplxModel.mem -> CplxModel.mem) (w x : cmat) : cmat :=
  mat (routine a_out a_x (args w x (fun _ _ => RtoC 0))) a_out.
(** routine(out,out) *)
Definition call0 (routine : path -> path -> CplxModel.mem -> CplxModel.mem) (w : cmat) : cmat :=
  mat (routine a_out a_out (args w (fun _ _ => RtoC 0) (fun _ _ => RtoC 0))) a_out.
Definition su3_prod : cmat -> cmat -> cmat := call2 (fun o x y => unsafe_su3_prod_su3 o x y NCOL).
Definition su3_prod_dag : cmat -> cmat -> cmat := call2 (fun o x y => unsafe_su3_prod_su3_dag o x y NCOL).
Definition su3_dag_prod : cmat -> cmat -> cmat := call2 (fun o x y => unsafe_su3_dag_prod_su3 o x y NCOL).
Definition su3_sum : cmat -> cmat -> cmat := call1 su3_summassign.

Section Gauge.
Context (g : grid).
Notation qf := (@qfield cmat).

(** plaquette.hpp:24-54  point_plaquette_lx_conf: [loc_plaq] before and after the addend of the directions mu, nu *)
Definition plaq_addend (r : Z) (conf : qf) (A : Z) (loc_plaq : option (nat -> R)) (munu : nat * nat) : option (nat -> R) :=
  let '(mu, nu) := munu in
  match loc_plaq, nb g r A mu, nb g r A nu with
  | Some p, Some B, Some C =>
      match op2 su3_prod (conf A mu) (conf B nu), op2 su3_prod (conf A nu) (conf C mu) with
      | Some ABD, Some ACD =>
          let ts := if negb (Nat.eqb mu 0) && negb (Nat.eqb nu 0) then 1%nat else 0%nat in
          Some (fun k => if Nat.eqb k ts then (p k + real_part_of_trace_su3_prod_su3_dag (args ABD ACD ACD) a_out a_x)%R else p k)
      | _, _ => None
      end
  | _, _, _ => None
  end.
Definition point_plaquette_lx_conf (r : Z) (conf : qf) (A : Z) : option (nat -> R) :=
  fold_left (plaq_addend r conf A) (flat_map (fun mu => map (fun nu => (mu, nu)) (seq (mu + 1) (4 - (mu + 1)))) (seq 0 4)) (Some (fun _ => 0%R)).

(** the field as it is given to updateHalo: entry by entry *)
Definition to_table (conf : Z -> qf) (q : Z) : table (nat -> option cmat) := fun i => Some (conf q i).
Definition of_table (t : table (nat -> option cmat)) : qf := fun i mu => match t i with Some q => q mu | None => None end.

(** plaquette.hpp:57-80  global_plaquette_lx_conf.  [point_plaq] is the field of the rank, [ix] the address of its components, whatever the loop
    filling it (each iteration writes its own site); the reduction is the one of ReduceModel *)
Definition global_plaquette_lx_conf (surf_sched : Z -> list Z) (bk : Z -> ParModel.backend) (ix : Z -> Z -> Z) (conf : Z -> qf) (totplaq : nat -> R) : Prop :=
  exists (confs : Z -> qf) (point_plaq : Z -> ParModel.mem R) (temp : Z -> R),
    (forall r, 0 <= r < nranks g -> option_map of_table (updateHalo g surf_sched (to_table conf) r) = Some (confs r)) /\
    (forall r ivol, 0 <= r < nranks g -> 0 <= ivol < locVol g ->
       exists p, point_plaquette_lx_conf r (confs r) ivol = Some p /\ forall ts, (ts < 2)%nat -> point_plaq r (ix ivol (Z.of_nat ts)) = p ts) /\
    field_reduce bk Rplus ix 2 (locVol g) (map point_plaq (seqZ (nranks g))) temp /\
    forall ts, (ts < 2)%nat -> totplaq ts = (temp (Z.of_nat ts) / (IZR (glbVol g) * INR NCOL * INR NCOL))%R.
(** plaquette.hpp:83-92  the average *)
Definition average_plaquette (plaq : nat -> R) : R := ((plaq 0%nat + plaq 1%nat) / 2)%R.
(** Wilson_action.hpp:14-28 *)
Definition Wilson_action (plaq beta : R) : R := (beta * 6 * (1 - plaq) * IZR (glbVol g))%R.

Context (ord : Z -> nat -> nat -> nat -> Z -> Z -> list Z) (surf_sched : Z -> list Z).
(** Wilson_force.cpp:42-62.  [ss] the staples before, [sb] the sending buffer before, [F] the result before *)
Definition herm_site (rr : R) (ivol : Z) (F : qf) : qf :=
  fold_left (fun F mu => link_put F ivol mu (option_map (call0 (fun a b => safe_su3_hermitian_prod_double a b rr)) (F ivol mu))) dirs F.
Definition Wilson_force_lx_conf (conf : Z -> qf) (ss : Z -> @sfield cmat) (sb F : Z -> qf) (beta : R) (r : Z) : option (qf * qf) :=
  match compute_summed_squared_staples_lx_conf su3_prod su3_prod_dag su3_dag_prod su3_sum g ord surf_sched conf ss sb F r with
  | Some (conf', F) => Some (conf', PAR ord r 10 0 0 0 (locVol g) (herm_site (- beta / INR NCOL)) F)
  | None => None
  end.
(** gluonic_force.cpp:23-41  gluonic_force_finish_computation *)
Definition finish_site (conf : qf) (ivol : Z) (F : qf) : qf :=
  fold_left (fun F mu => link_put F ivol mu
    (match op2 su3_prod (conf ivol mu) (F ivol mu) with
     | Some temp => option_map (fun w => call1 unsafe_su3_traceless_anti_hermitian_part w temp) (F ivol mu)
     | None => None end)) dirs F.
(** gluonic_force.cpp:44-66, 69-165  compute_gluonic_force_lx_conf with WILSON_GAUGE_ACTION *)
Definition compute_gluonic_force_lx_conf (conf : Z -> qf) (ss : Z -> @sfield cmat) (sb F : Z -> qf) (beta : R) (r : Z) : option (qf * qf) :=
  match Wilson_force_lx_conf conf ss sb F beta r with
  | Some (conf', F) => Some (conf', PAR ord r 11 0 0 0 (locVol g) (finish_site conf') F)
  | None => None
  end.
End Gauge.
