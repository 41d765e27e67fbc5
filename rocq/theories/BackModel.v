(** Phases of the links: boundary conditions of a configuration, src/operations/gaugeconf.cpp:125-181, and the background U(1) field,
    src/hmc/backfield.cpp.  Exact real arithmetic; the integers of the arguments of the phases do not overflow.  An entry which nobody has written is None.
    Simplifications: printing is left out. *)
From Coq Require Import Reals.
From Coquelicot Require Import Complex.
From Verif Require Import Base GeometryModel GeoMiscModel HaloModel EoModel EoProofs StapleModel CplxModel MatModel MatSpec GaugeModel.
Open Scope Z_scope.

(** for(mu in mus) s[i][mu]=body(mu,s[i][mu]) *)
Definition links_of {T} (mus : list nat) (body : nat -> option T -> option T) (i : Z) (s : @qfield T) : @qfield T :=
  fold_left (fun s mu => link_put s i mu (body mu (s i mu))) mus s.

Definition lift2 {A B D} (f : A -> B -> D) (a : option A) (b : option B) : option D := match a, b with Some a, Some b => Some (f a b) | _, _ => None end.

(** the memory of a product of a matrix, in a_out, and a number *)
Definition l_num : path := [5%nat].
Definition with_num (w : cmat) (c : C) : CplxModel.mem := fun p => match p with [_] => c | _ => args w w w p end.
(** safe_su3_prod_complex(U,U,c) *)
Definition su3_times (c : C) (U : cmat) : cmat := mat (safe_su3_prod_complex a_out a_out l_num [3%nat] (with_num U c)) a_out.
(** safe_complex_prod(S,S,ph), complex_prodassign(S,ph) *)
Definition two (a b : C) : CplxModel.mem := fun p => match p with [0%nat] => a | _ => b end.
Definition u1_times (ph S : C) : C := safe_complex_prod [0%nat] [0%nat] [1%nat] (two S ph) [0%nat].
Definition u1_prodassign (ph S : C) : C := complex_prodassign [0%nat] [1%nat] (two S ph) [0%nat].

Section B.
Context (g : grid) (ord : Z -> nat -> nat -> nat -> Z -> Z -> list Z).
Notation G := (glbSize g).

(** ** gaugeconf.cpp:125-149 *)
Definition put_boundaries_conditions (r : Z) (conf : @qfield cmat) (theta_in_pi : nat -> R) (putonbords putonedges : bool) : @qfield cmat :=
  let theta := fun idir : nat => (cos (theta_in_pi idir * PI / IZR G.[idir]), sin (theta_in_pi idir * PI / IZR G.[idir])) in
  let nsite := locVol g + (if putonbords then bordVol g else 0) + (if putonedges then edgeVol g else 0) in
  PAR ord r 30 0 0 0 nsite (links_of dirs (fun idir => option_map (su3_times (theta idir)))) conf.
(** gaugeconf.cpp:151-158 *)
Definition rem_boundaries_conditions (r : Z) (conf : @qfield cmat) (theta_in_pi : nat -> R) (putonbords putonedges : bool) : @qfield cmat :=
  put_boundaries_conditions r conf (fun idir => (- theta_in_pi idir)%R) putonbords putonedges.
(** gaugeconf.cpp:160-181: the configuration and old_theta after *)
Definition adapt_theta (r : Z) (conf : @qfield cmat) (old_theta put_theta : nat -> R) (putonbords putonedges : bool) : @qfield cmat * (nat -> R) :=
  let adapt := existsb (fun idir => if Req_EM_T (old_theta idir) (put_theta idir) then false else true) dirs in
  let diff_theta := fun idir => (put_theta idir - old_theta idir)%R in
  (if adapt then put_boundaries_conditions r conf diff_theta putonbords putonedges else conf, fun idir => if (idir <? 4)%nat then put_theta idir else old_theta idir).

(** ** backfield.cpp.  A field of the two parities on a rank *)
Definition eofield T := Z -> @qfield T.
Definition par_loop {T} (l : nat) (r : Z) (body : Z -> Z -> @qfield T -> @qfield T) (S : eofield T) : eofield T :=
  fun par => if (par =? 0) || (par =? 1) then PAR ord r l (Z.to_nat par) 0 0 (locVolh g) (body par) (S par) else S par.
(** backfield.cpp:19-35 *)
Definition init_backfield_to_id (r : Z) : eofield C -> eofield C := par_loop 31 r (fun par => links_of dirs (fun mu _ => Some (1%R, 0%R))).
(** backfield.cpp:38-57 *)
Definition add_im_pot_to_backfield (r : Z) (im_pot : R) : eofield C -> eofield C :=
  let im_pot := (im_pot * PI / IZR G.[0])%R in
  par_loop 32 r (fun par => links_of [0%nat] (fun mu => option_map (u1_times (cos im_pot, sin im_pot)))).
(** backfield.cpp:61-71 *)
Definition get_args_of_null_quantization (x : list Z) (mu nu : nat) : nat -> Z := fun _ => 0.
(** backfield.cpp:73-95 *)
Definition get_args_of_one_over_L2_quantization (x : list Z) (mu nu : nat) : nat -> Z :=
  let phase0 := fun _ : nat => 0 in
  let xmu := if G.[mu] ÷ 2 <=? x.[mu] then x.[mu] - G.[mu] else x.[mu] in
  let xnu := if G.[nu] ÷ 2 <=? x.[nu] then x.[nu] - G.[nu] else x.[nu] in
  let phase1 := if xmu =? G.[mu] ÷ 2 - 1 then fun rho => if Nat.eqb rho mu then - xnu * G.[mu] else phase0 rho else phase0 in
  fun rho => if Nat.eqb rho nu then xmu else phase1 rho.
(** backfield.cpp:97-116 *)
Definition get_args_of_half_half_quantization (x : list Z) (mu nu : nat) : nat -> Z :=
  let xmu := if x.[mu] <=? G.[mu] ÷ 2 then x.[mu] - G.[mu] ÷ 4 else (3 * G.[mu]) ÷ 4 - x.[mu] in
  fun rho => if Nat.eqb rho nu then xmu else 0.
(** backfield.cpp:118-119 *)
Definition get_args_of_quantization (q : Z) : list Z -> nat -> nat -> nat -> Z :=
  if q =? 0 then get_args_of_null_quantization else if q =? 1 then get_args_of_one_over_L2_quantization else get_args_of_half_half_quantization.
(** backfield.cpp:123-154; None: CRASH, or a quantization out of the table *)
Definition add_em_component (r : Z) (charge em_str : R) (quantization : Z) (mu nu : nat) (S : eofield C) : option (eofield C) :=
  let phase := (2 * em_str * charge * PI / IZR G.[mu] / IZR G.[nu])%R in
  if ((quantization =? 2) && negb (Z.rem G.[mu] 4 =? 0))%bool then None
  else if (quantization <? 0) || (2 <? quantization) then None
  else Some (par_loop 33 r (fun par ieo s =>
    match loclx_of_loceo (rank_eo g r) par ieo with
    | Some ilx => match glbCoordOfLoclx (rank_labels g r) ilx with
      | Some x => let arg := get_args_of_quantization quantization x mu nu in
          links_of [0; 1; 2; 3]%nat (fun rho => option_map (u1_times (cos (phase * IZR (arg rho)), sin (phase * IZR (arg rho))))) ieo s
      | None => s end
    | None => s end) S).
(** backfield.cpp:157-174: the six components *)
Definition em_planes : list (bool * nat * (nat * nat)) :=
  [(true, 0, (0, 1)); (true, 1, (0, 2)); (true, 2, (0, 3)); (false, 0, (2, 3)); (false, 1, (3, 1)); (false, 2, (1, 2))]%nat.
Definition add_em_field_to_backfield (r : Z) (charge : R) (E B : nat -> R) (flag : Z) (S : eofield C) : option (eofield C) :=
  if flag =? 0 then Some S
  else fold_left (fun S c => match S with
    | Some S0 => let '(el, k, (mu, nu)) := c in let str := if el : bool then E k else B k in
        if Rlt_dec (/ 10 ^ 10) (Rabs str) then add_em_component r charge str flag mu nu S0 else Some S0
    | None => None end) em_planes (Some S).
(** backfield.cpp:193-227 *)
Definition add_antiperiodic_condition_to_backfield (r : Z) (mu : nat) : eofield C -> eofield C :=
  let arg := (- 1 * PI / IZR G.[mu])%R in
  par_loop 34 r (fun par => links_of [mu] (fun _ => option_map (u1_prodassign (cos arg, sin arg)))).
(** backfield.cpp:331-342: theory_pars_t::init_backfield, for one flavour *)
Definition init_backfield (r : Z) (im_pot charge : R) (E B : nat -> R) (flag : Z) (S : eofield C) : option (eofield C) :=
  option_map (add_antiperiodic_condition_to_backfield r 0)
    (add_em_field_to_backfield r charge E B flag (add_im_pot_to_backfield r im_pot (init_backfield_to_id r S))).

(** backfield.cpp:230-245 *)
Definition add_or_rem_stagphases_to_conf (r : Z) : eofield cmat -> eofield cmat :=
  par_loop 35 r (fun par ieo s =>
    match loclx_of_loceo (rank_eo g r) par ieo with
    | Some ilx => match glbCoordOfLoclx (rank_labels g r) ilx with
      | Some x => links_of dirs (fun mu => option_map (fun U => mat (su3_prodassign_double a_out (IZR (getStagphases x).[mu]) (args U U U)) a_out)) ieo s
      | None => s end
    | None => s end).
(** backfield.cpp:263-279: the factor of one link *)
Definition factor (rem without : bool) (ph : Z) (u : C) : C :=
  let m0 := two (RtoC 0) u in
  let m1 := if rem then complex_conj [0%nat] [1%nat] m0 else complex_copy [0%nat] [1%nat] m0 in
  let m2 := if without then m1 else complex_prodassign_double [0%nat] (IZR ph) m1 in
  m2 [0%nat].
(** backfield.cpp:248-283.  add_rem=0 is to add, with_without=0 is with the phases *)
Definition backfield_to_eo_conf (r : Z) (rem without : bool) (u1 : eofield C) : eofield cmat -> eofield cmat :=
  par_loop 36 r (fun par ieo s =>
    match loclx_of_loceo (rank_eo g r) par ieo with
    | Some ilx => match glbCoordOfLoclx (rank_labels g r) ilx with
      | Some x => links_of dirs (fun mu => lift2 (fun u U => su3_times (factor rem without (getStagphases x).[mu] u) U) (u1 par ieo mu)) ieo s
      | None => s end
    | None => s end).
(** backfield.cpp:286-322: the same on a field which is not split *)
Definition backfield_to_lx_conf (r : Z) (rem without : bool) (u1 : eofield C) (conf : @qfield cmat) : @qfield cmat :=
  fold_left (fun conf par => PAR ord r 37 (Z.to_nat par) 0 0 (locVolh g) (fun ieo s =>
    match loclx_of_loceo (rank_eo g r) par ieo with
    | Some ilx => match glbCoordOfLoclx (rank_labels g r) ilx with
      | Some x => links_of dirs (fun mu => lift2 (fun u U => su3_times (factor rem without (getStagphases x).[mu] u) U) (u1 par ieo mu)) ilx s
      | None => s end
    | None => s end) conf) [0; 1] conf.
End B.
