(** Squared staples of the gauge configuration, all the ranks together: src/operations/su3_paths/squared_staples.cpp (lx version), with the
    exchanges of one orientation of src/base/field.cpp, and the sum of the staples.
    The matrices are values of any type T, with the three products used by the code (su3_op.hpp; they are modelled entry by entry in MatModel).
    An entry of a field or of a buffer which nobody has written is None, and so is what is computed from it.
    Simplification: the iterations of a parallel loop are executed one after the other, in an arbitrary order. *)
From Verif Require Import Base GeometryModel GeoMiscModel HaloModel.

(** base/init.cpp:212-215 *)
Definition perpDirs (mu inu : nat) : nat := nth inu (nth mu [[1; 2; 3]; [0; 2; 3]; [0; 1; 3]; [0; 1; 2]]%nat []) 0%nat.

(** base/field.cpp:11-61  startBufHaloNeighExchange with the list of the (orientation, direction) to be communicated *)
Definition asked (ds : list (Z * nat)) (g : grid) (p : nat * Z) : bool :=
  isDirParallel g (fst p) && existsb (fun d => (fst d =? snd p) && Nat.eqb (snd d) (fst p)) ds.
Definition halo_sends_dirs (ds : list (Z * nat)) (g : grid) (rc : list Z) (divCoeff : Z) : list msg :=
  map (fun '(mu, sendOri) => halo_msg g rc divCoeff mu sendOri sendOri) (filter (asked ds g) halo_loop).
Definition halo_recvs_dirs (ds : list (Z * nat)) (g : grid) (rc : list Z) (divCoeff : Z) : list msg :=
  map (fun '(mu, sendOri) => halo_msg g rc divCoeff mu sendOri (1 - sendOri)) (filter (asked ds g) halo_loop).

Section Staples.
Context {T : Type} (mul muldag dagmul : T -> T -> T) (add : T -> T -> T) (g : grid).
(** unsafe_su3_prod_su3(o,a,b) o=a*b; unsafe_su3_prod_su3_dag o=a*b^dag; unsafe_su3_dag_prod_su3 o=a^dag*b *)
Definition op2 (f : T -> T -> T) (a b : option T) : option T := match a, b with Some a, Some b => Some (f a b) | _, _ => None end.

(** new_types/su3.hpp: quad_su3, squared_staples_t; the fields *)
Definition quad := nat -> option T.
Definition qfield := Z -> quad.
Definition sfield := Z -> nat -> nat -> option T.
(** quad_su3_copy *)
Definition quad_put (s : qfield) (i : Z) (v : quad) : qfield := fun j => if j =? i then v else s j.
(** su3_copy and the products, on an entry *)
Definition link_put (s : qfield) (i : Z) (mu : nat) (v : option T) : qfield :=
  fun j nu => if (j =? i) && Nat.eqb nu mu then v else s j nu.
Definition stap_put (s : sfield) (i : Z) (mu k : nat) (v : option T) : sfield :=
  fun j nu h => if (j =? i) && Nat.eqb nu mu && Nat.eqb h k then v else s j nu h.

(** the order in which the rank executes the iterations lo..hi-1 of a parallel loop; the loop is named by its step and by two more indices *)
Context (ord : Z -> nat -> nat -> nat -> Z -> Z -> list Z).
Definition PAR {S} (r : Z) (l a b : nat) (lo hi : Z) (body : Z -> S -> S) (s : S) : S := fold_left (fun s i => body i s) (ord r l a b lo hi) s.
Definition loop2 {S} (L M : list nat) (body : nat -> nat -> S -> S) (s : S) : S := fold_left (fun s p => body (fst p) (snd p) s) (list_prod L M) s.

(** the tables of the rank; surf_sched is the order in which the table of the surface has been built *)
Context (surf_sched : Z -> list Z).
Definition nb (r : Z) (A : Z) (mu : nat) : option Z := loclxNeigh g (coordOfRank g r) (rank_labels g r) true A mu.
Definition surflxOfBordlx (r : Z) : table Z := findSurfOfBord g (coordOfRank g r) (rank_labels g r) (surf_sched r).
Definition entry (l : list Z) (i : Z) : option Z := if 0 <=? i then nth_error l (Z.to_nat i) else None.

(** squared_staples.cpp:122-125, 262-265  one forward staple.  An entry of a table which has not been written leaves no effect. *)
Definition fw_staple (r : Z) (conf : qfield) (mu inu : nat) (A : Z) (out : sfield) : sfield :=
  let nu := perpDirs mu inu in
  match nb r A nu, nb r A mu with
  | Some B, Some F => stap_put out A mu (3 + inu) (op2 muldag (op2 mul (conf A nu) (conf B mu)) (conf F nu))
  | _, _ => out
  end.
(** squared_staples.cpp:164-167, 238-241  one backward staple *)
Definition bw_staple (r : Z) (conf : qfield) (mu inu : nat) (D : Z) (out : sfield) : sfield :=
  let nu := perpDirs mu inu in
  match nb r D nu, nb r D mu with
  | Some A, Some E => stap_put out A mu inu (op2 mul (op2 dagmul (conf D nu) (conf D mu)) (conf E nu))
  | _, _ => out
  end.
Definition at_list (l : list Z) (body : Z -> sfield -> sfield) (i : Z) (s : sfield) : sfield :=
  match entry l i with Some A => body A s | None => s end.

(** squared_staples.cpp:85-98  step 1: the lower surface in the first half of the buffer *)
Definition fill_lower_surface (r : Z) (conf sb : qfield) : qfield :=
  PAR r 1 0 0 0 (bordVolh g) (fun ibord sb => match surflxOfBordlx r ibord with Some s => quad_put sb ibord (conf s) | None => sb end) sb.
(** squared_staples.cpp:102-105 *)
Definition dir_comm (ori : Z) : list (Z * nat) := [(ori, 0); (ori, 1); (ori, 2); (ori, 3)]%nat.
(** what arrives in the receiving buffer of rank r.  The rest of the buffer is left as unwritten. *)
Definition exchange (ori : Z) (sb : Z -> qfield) (r : Z) : option qfield :=
  option_map (fun rb i mu => match rb i with Some q => q mu | None => None end)
    (recv_all (fun q => halo_sends_dirs (dir_comm ori) g (coordOfRank g q) 1) (fun q i => Some (sb q i)) r
              (halo_recvs_dirs (dir_comm ori) g (coordOfRank g r) 1)).
(** squared_staples.cpp:109-128  step 2 *)
Definition non_fw_surf_fw (r : Z) (s : surfLists) (conf : qfield) (out : sfield) : sfield :=
  loop2 dirs [0; 1; 2]%nat (fun mu inu => PAR r 2 mu inu 0 (nonFwSurfVol g) (at_list (loclxOfNonFwSurflx s) (fw_staple r conf mu inu))) out.
(** squared_staples.cpp:131-147  step 3 *)
Definition finish_lower_surface (r : Z) (rb conf : qfield) : qfield :=
  PAR r 3 0 0 0 (bordVolh g) (fun i conf => quad_put conf (locVol g + bordVolh g + i) (rb (bordVolh g + i))) conf.
(** squared_staples.cpp:150-172  step 4, computation: inu is the outer loop *)
Definition fw_surf_bw (r : Z) (s : surfLists) (conf : qfield) (out : sfield) : sfield :=
  loop2 [0; 1; 2]%nat dirs (fun inu mu => PAR r 4 mu inu 0 (fwSurfVol g) (at_list (loclxOfFwSurflx s) (bw_staple r conf mu inu))) out.
(** squared_staples.cpp:174-198  step 4, copy in the buffer *)
Definition inu_of (nu mu : nat) : nat := if Nat.ltb nu mu then nu else (nu - 1)%nat.
Definition fill_bw_staples (r : Z) (out : sfield) (sb : qfield) : qfield :=
  loop2 dirs [0; 1; 2]%nat (fun nu imu sb =>
    if isDirParallel g nu then
      let mu := perpDirs nu imu in
      PAR r 5 nu imu (bordVolh g + bordOffset g nu) (bordVolh g + bordOffset g nu + bordDirVol g nu)
        (fun ibord sb => link_put sb ibord mu (out (locVol g + ibord) mu (inu_of nu mu))) sb
    else sb) sb.
(** squared_staples.cpp:207-228  step 5 *)
Definition non_fw_surf_bw (r : Z) (s : surfLists) (conf : qfield) (out : sfield) : sfield :=
  loop2 dirs [0; 1; 2]%nat (fun mu inu => PAR r 6 mu inu 0 (nonFwSurfVol g) (at_list (loclxOfNonFwSurflx s) (bw_staple r conf mu inu))) out.
(** squared_staples.cpp:231-252  step 6 *)
Definition fw_surf_fw (r : Z) (s : surfLists) (conf : qfield) (out : sfield) : sfield :=
  loop2 dirs [0; 1; 2]%nat (fun mu inu => PAR r 7 mu inu 0 (fwSurfVol g) (at_list (loclxOfFwSurflx s) (fw_staple r conf mu inu))) out.
(** squared_staples.cpp:255-285  step 7 *)
Definition finish_bw_staples (r : Z) (rb : qfield) (out : sfield) : sfield :=
  loop2 dirs [0; 1; 2]%nat (fun nu imu out =>
    if isDirParallel g nu then
      let mu := perpDirs nu imu in
      PAR r 8 nu imu (bordOffset g nu) (bordOffset g nu + bordDirVol g nu)
        (fun ibord out => match surflxOfBordlx r ibord with Some s => stap_put out s mu (inu_of nu mu) (rb ibord mu) | None => out end) out
    else out) out.

(** squared_staples.cpp:288-303  compute_squared_staples_lx_conf executed by all the ranks.
    [conf] the configuration, [out] the result before, [sb] the sending buffer before. *)
Definition steps_1 (conf sb : Z -> qfield) (r : Z) : qfield := fill_lower_surface r (conf r) (sb r).
Definition steps_2_4 (conf : Z -> qfield) (out : Z -> sfield) (sb : Z -> qfield) (r : Z) : option (qfield * sfield * qfield) :=
  match find_bulk_sites g (rank_labels g r), exchange 0 (steps_1 conf sb) r with
  | Some s, Some rb =>
      let out := non_fw_surf_fw r s (conf r) (out r) in
      let conf' := finish_lower_surface r rb (conf r) in
      let out := fw_surf_bw r s conf' out in
      Some (conf', out, fill_bw_staples r out (steps_1 conf sb r))
  | _, _ => None
  end.
Definition compute_squared_staples_lx_conf (conf : Z -> qfield) (out : Z -> sfield) (sb : Z -> qfield) (r : Z) : option (qfield * sfield) :=
  match find_bulk_sites g (rank_labels g r), steps_2_4 conf out sb r,
        exchange 1 (fun q => match steps_2_4 conf out sb q with Some (_, _, sb) => sb | None => fun _ _ => None end) r with
  | Some s, Some (conf', out, _), Some rb =>
      Some (conf', finish_bw_staples r rb (fw_surf_fw r s conf' (non_fw_surf_bw r s conf' out)))
  | _, _, _ => None
  end.

(** squared_staples.cpp:306-329  compute_summed_squared_staples_lx_conf *)
Definition sum_site (ss : sfield) (ivol : Z) (out : qfield) : qfield :=
  fold_left (fun out mu =>
    fold_left (fun out iterm => link_put out ivol mu (op2 add (out ivol mu) (ss ivol mu iterm))) [1; 2; 3; 4; 5]%nat
      (link_put out ivol mu (ss ivol mu 0%nat))) dirs out.
Definition compute_summed_squared_staples_lx_conf (conf : Z -> qfield) (ss : Z -> sfield) (sb : Z -> qfield) (out : Z -> qfield) (r : Z)
  : option (qfield * qfield) :=
  match compute_squared_staples_lx_conf conf ss sb r with
  | Some (conf', s) => Some (conf', PAR r 9 0 0 0 (locVol g) (sum_site s) (out r))
  | None => None
  end.
End Staples.
