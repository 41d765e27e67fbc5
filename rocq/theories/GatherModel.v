(** Symmetrisation of gathered vectors: src/operations/vector_gather.cpp:68-147.  Exact real arithmetic.  A vector is a
    function of the global site and of the component: vec[dps*site+id] of the code is [v site id]. *)
From Coq Require Import Reals.
From Verif Require Import Base GeometryModel.
Open Scope Z_scope.

Definition gvec := Z -> Z -> R.

(** vector_gather.cpp:72-79: the buffer: the first site copied, the others added in order, the sum divided by nsites *)
Definition average_buf (v : gvec) (sites : list Z) (id : Z) : R :=
  match sites with
  | [] => 0%R
  | s0 :: l => (fold_left (fun acc s => acc + v s id) l (v s0 id) / INR (length sites))%R
  end.
(** vector_gather.cpp:69-84: average_list_of_gathered_vector_sites *)
Definition average_list (v : gvec) (sites : list Z) (dps : Z) : gvec :=
  fun s id => if (existsb (Z.eqb s) sites && (0 <=? id) && (id <? dps))%bool then average_buf v sites id else v s id.

(** for(i=0;i<=n;i++) *)
Definition upto (n : Z) : list Z := seqZ (n + 1).

(** vector_gather.cpp:103-109: the eight partners; imirr&(1<<mu) never acts on mu=3 *)
Definition mirror_coord (sz : list Z) (imirr : Z) (x : list Z) : list Z :=
  map (fun mu => if negb (Z.land imirr (Z.shiftl 1 (Z.of_nat mu)) =? 0)
                 then Z.rem (sz.[mu] - x.[mu]) sz.[mu] else x.[mu]) [0%nat; 1%nat; 2%nat; 3%nat].
Definition mirror_sites (sz x : list Z) : list Z := map (fun i => lxOfCoord (mirror_coord sz i x) sz) (seqZ 8).

(** vector_gather.cpp:94-99: the loops *)
Definition mirror_loop (sz : list Z) : list (list Z) :=
  let TH := Z.quot sz.[0] 2 in let LH := Z.quot sz.[1] 2 in
  flat_map (fun x0 => flat_map (fun x1 => flat_map (fun x2 => map (fun x3 => [x0; x1; x2; x3]) (upto LH)) (upto LH)) (upto LH)) (upto TH).

(** vector_gather.cpp:87-115: gathered_vector_mirrorize; None is the CRASH at line 89 *)
Definition gathered_vector_mirrorize (sz : list Z) (v : gvec) (dps : Z) : option gvec :=
  if negb (Z.rem sz.[0] 2 =? 0) || negb (Z.rem sz.[1] 2 =? 0) then None
  else Some (fold_left (fun v x => average_list v (mirror_sites sz x) dps) (mirror_loop sz) v).

(** vector_gather.cpp:125, 135-137: the six partners *)
Definition perms : list (nat * nat * nat) :=
  [(1, 2, 3); (2, 3, 1); (3, 1, 2); (1, 3, 2); (3, 2, 1); (2, 1, 3)]%nat.
Definition perm_sites (sz x : list Z) : list Z :=
  map (fun p => let '(a, b, c) := p in lxOfCoord [x.[0]; x.[a]; x.[b]; x.[c]] sz) perms.

(** vector_gather.cpp:128-132: the loops *)
Definition perm_loop (sz : list Z) : list (list Z) :=
  let TH := Z.quot sz.[0] 2 in let LH := Z.quot sz.[1] 2 in
  flat_map (fun x0 => flat_map (fun x1 => flat_map (fun x2 => map (fun x3 => [x0; x1; x2; x3]) (upto x2)) (upto x1)) (upto LH)) (upto TH).

(** vector_gather.cpp:118-146: gathered_vector_cubic_symmetrize *)
Definition gathered_vector_cubic_symmetrize (sz : list Z) (v : gvec) (dps : Z) : option gvec :=
  if negb (Z.rem sz.[0] 2 =? 0) || negb (Z.rem sz.[1] 2 =? 0) then None
  else Some (fold_left (fun v x => average_list v (perm_sites sz x) dps) (perm_loop sz) v).
