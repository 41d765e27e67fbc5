(** All-to-all communicator: src/communicate/all_to_all.{hpp,cpp} and vector_remap_t of
    src/operations/remap_vector.hpp, for all the ranks together.
    [None] stands for an abort, a hang, or undefined behaviour.  std::vector<int> of known length are
    lists or total functions; malloc-ed arrays are tables whose unwritten cells are None. *)
From Verif Require Import Base GeometryModel HaloModel.

(** what one rank does with its list: for each element, the rank to talk to, the index on this rank and
    the index on the other rank.  Scattering: rank_to=second%nranks, first, second/nranks (all_to_all.cpp:200,217-223);
    gathering: rank_fr=first%nranks, second, first/nranks (all_to_all.cpp:265,282-286). *)
Record entry := mkEntry { e_rank : Z; e_mine : Z; e_theirs : Z }.
Definition entry_of_scatter (N : Z) (p : Z * Z) : entry :=
  mkEntry (Z.rem (snd p) N) (fst p) (Z.quot (snd p) N).
Definition entry_of_gather (N : Z) (p : Z * Z) : entry :=
  mkEntry (Z.rem (fst p) N) (snd p) (Z.quot (fst p) N).

(** all_to_all.cpp:195-207, 259-269  number of elements per rank *)
Definition incr (t : Z -> Z) (q : Z) : Z -> Z := fun j => if j =? q then t j + 1 else t j.
Definition nper_rank_temp (es : list entry) : Z -> Z := fold_left (fun t e => incr t (e_rank e)) es (fun _ => 0).

(** all_to_all.cpp:25-48  setup_nper_rank_other_temp.  At each step rank r sends its counter for
    dest=(r+N+delta)%N and receives in the cell recv=(r+N-delta)%N the number sent by rank recv in the same step
    if addressed to r.  The exchange is done twice. *)
Definition other_step (N : Z) (temp : Z -> Z -> Z) (r : Z) (o : option (Z -> Z)) (delta : Z) : option (Z -> Z) :=
  let recv := Z.rem (r + N - delta) N in
  let dest_of_recv := Z.rem (recv + N + delta) N in
  match o with
  | Some o => if dest_of_recv =? r then Some (fun j => if j =? recv then temp recv dest_of_recv else o j) else None
  | None => None
  end.
Definition nper_rank_other_temp (N : Z) (temp : Z -> Z -> Z) (r : Z) : option (Z -> Z) :=
  fold_left (other_step N temp r) (seqZ N ++ seqZ N) (Some (fun _ => 0)).

(** all_to_all.cpp:51-124  common_setup_part1 *)
Record side := mkSide { list_ranks : list Z; nper_rank : list Z; buf_off : list Z; nel : Z }.
Definition ranks_of (N : Z) (t : Z -> Z) : list Z := filter (fun q => negb (t q =? 0)) (seqZ N).
Fixpoint offsets (acc : Z) (l : list Z) : list Z :=
  match l with [] => [] | n :: r => acc :: offsets (acc + n) r end.
Definition sum_to (N : Z) (t : Z -> Z) : Z := fold_left (fun a q => a + t q) (seqZ N) 0.
(** l.102-123: the offsets of both sides are only computed if nranks_to!=0 (resize filled them with 0) *)
Definition part1 (N : Z) (nto nfr : Z -> Z) : side * side :=
  let rto := ranks_of N nto in let rfr := ranks_of N nfr in
  let some_to := negb (Z.of_nat (length rto) =? 0) in
  (mkSide rto (map nto rto) (if some_to then offsets 0 (map nto rto) else repeat 0 (length rto)) (sum_to N nto),
   mkSide rfr (map nfr rfr) (if some_to then offsets 0 (map nfr rfr) else repeat 0 (length rfr)) (sum_to N nfr)).

(** std::map rank -> position in the list (l.74-90); an absent key reads as 0 *)
Fixpoint pos_of (q : Z) (l : list Z) : option nat :=
  match l with
  | [] => None
  | x :: r => if x =? q then Some O else option_map S (pos_of q r)
  end.
Definition map_pos (q : Z) (l : list Z) : nat := match pos_of q l with Some i => i | None => O end.

(** all_to_all.cpp:213-230, 278-293  positions in the buffer, in the order of the list *)
Record build := mkBuild { cur : nat -> Z; b_mine : table Z; b_theirs : table Z }.
Definition build_step (s : side) (b : build) (e : entry) : build :=
  let i := map_pos (e_rank e) (list_ranks s) in
  let ipos := cur b i in
  mkBuild (fun j => if (j =? i)%nat then cur b j + 1 else cur b j)
          (tset (b_mine b) ipos (e_mine e)) (tset (b_theirs b) ipos (e_theirs e)).
Definition build_bufs (s : side) (es : list entry) : build :=
  fold_left (build_step s) es (mkBuild (fun i => nth i (buf_off s) 0) tempty tempty).

(** the messages of one side: one per rank of the list (all_to_all.cpp:145-162, 349-383; tag 909) *)
Definition side_msgs (s : side) : list msg :=
  map (fun p => mkMsg (fst p) 909 (snd (snd p)) (fst (snd p))) (combine (list_ranks s) (combine (nper_rank s) (buf_off s))).

Record comm := mkComm { to : side; fr : side; out_buf_source : table Z; in_buf_dest : table Z }.

(** all_to_all.cpp:169-180  in_buf_dest must be written, non negative (or the check array is accessed
    outside) and without repetitions (CRASH) *)
Fixpoint read_cells (t : table Z) (l : list Z) : option (list Z) :=
  match l with
  | [] => Some []
  | i :: r => match t i, read_cells t r with Some v, Some vs => Some (v :: vs) | _, _ => None end
  end.
Fixpoint no_rep (l : list Z) : bool :=
  match l with [] => true | x :: r => negb (existsb (Z.eqb x) r) && no_rep r end.
Definition dest_check (n : Z) (t : table Z) : bool :=
  match read_cells t (seqZ n) with Some l => forallb (Z.leb 0) l && no_rep l | None => false end.

(** all_to_all.cpp:188-245  setup_knowing_where_to_send on rank r.  l.196-206: the destination rank must
    exist (CRASH); the codes must fit an int *)
Definition scatter_ok (N : Z) (sl : list (Z * Z)) : bool :=
  forallb (fun p => (0 <=? Z.rem (snd p) N) && in_int (snd p)) sl.
Definition sides_scatter (N : Z) (es : Z -> list entry) (r : Z) : option (side * side) :=
  let nto q := nper_rank_temp (es q) in
  match nper_rank_other_temp N nto r with
  | Some nfr => Some (part1 N (nto r) nfr)
  | None => None
  end.
Definition setup_scatter (N : Z) (sl : Z -> list (Z * Z)) (r : Z) : option comm :=
  if negb (scatter_ok N (sl r)) then None else
  let es q := map (entry_of_scatter N) (sl q) in
  match sides_scatter N es r with
  | Some (sto, sfr) =>
      let bufs q := match sides_scatter N es q with Some (sq, _) => build_bufs sq (es q) | None => mkBuild (fun _ => 0) tempty tempty end in
      let sends q := match sides_scatter N es q with Some (sq, _) => side_msgs sq | None => [] end in
      match recv_all sends (fun q => b_theirs (bufs q)) r (side_msgs sfr) with
      | Some d => if dest_check (nel sfr) d then Some (mkComm sto sfr (b_mine (bufs r)) d) else None
      | None => None
      end
  | None => None
  end.

(** all_to_all.cpp:253-303  setup_knowing_what_to_ask: here the "from" side is known *)
Definition sides_gather (N : Z) (es : Z -> list entry) (r : Z) : option (side * side) :=
  let nfr q := nper_rank_temp (es q) in
  match nper_rank_other_temp N nfr r with
  | Some nto => Some (part1 N nto (nfr r))
  | None => None
  end.
Definition gather_ok (N : Z) (gl : list (Z * Z)) : bool :=
  forallb (fun p => (0 <=? Z.rem (fst p) N) && in_int (fst p)) gl.
Definition setup_gather (N : Z) (gl : Z -> list (Z * Z)) (r : Z) : option comm :=
  if negb (gather_ok N (gl r)) then None else
  let es q := map (entry_of_gather N) (gl q) in
  match sides_gather N es r with
  | Some (sto, sfr) =>
      let bufs q := match sides_gather N es q with Some (_, sq) => build_bufs sq (es q) | None => mkBuild (fun _ => 0) tempty tempty end in
      let sends q := match sides_gather N es q with Some (_, sq) => side_msgs sq | None => [] end in
      match recv_all sends (fun q => b_theirs (bufs q)) r (side_msgs sto) with
      | Some s => if dest_check (nel sfr) (b_mine (bufs r)) then Some (mkComm sto sfr s (b_mine (bufs r))) else None
      | None => None
      end
  | None => None
  end.

(** all_to_all.cpp:306-407  communicate on rank r; A is the content of bps bytes.
    The local part (l.370-386) is copied by a loop of nper_rank_to[irank_fr_this] elements; when this is more
    than the part to be received it runs into the receive area of other messages still pending: undefined. *)
Definition not_this (r : Z) (m : msg) : bool := negb (peer m =? r).
Definition local_copy {A} (c : comm) (r : Z) (ob ib : table A) : option (table A) :=
  match pos_of r (list_ranks (fr c)), pos_of r (list_ranks (to c)) with
  | Some ifr, Some ito =>
      if negb (nth ito (nper_rank (to c)) 0 =? nth ifr (nper_rank (fr c)) 0) then None
      else match nth_error (nper_rank (to c)) ifr with
           | None => None
           | Some n =>
               let o := nth ito (buf_off (to c)) 0 in let i := nth ifr (buf_off (fr c)) 0 in
               if nth ifr (nper_rank (fr c)) 0 <? n then None
               else Some (fun j => if (i <=? j) && (j <? i + n) then ob (o + (j - i)) else ib j)
           end
  | _, _ => Some ib
  end.
(** l.390-399: the elements are put in place by a loop up to nel_out; sched n is the order in which a
    parallel loop of n iterations is executed; a destination
    index never written makes the copy undefined; an element never received is copied as garbage (None) *)
Definition put_step {A} (d : table Z) (ib : table A) (o : option (table A)) (i : Z) : option (table A) :=
  match o, d i with
  | Some o, Some k => Some (fun j => if j =? k then ib i else o j)
  | _, _ => None
  end.
(** l.318-336: repacking of the data to be sent *)
Definition out_buffer {A} (c : Z -> option comm) (input : Z -> table A) (q : Z) : table A :=
  match c q with
  | Some cq => fun i => if (0 <=? i) && (i <? nel (to cq)) then match out_buf_source cq i with Some s => input q s | None => None end else None
  | None => tempty
  end.
Definition communicate {A} (c : Z -> option comm) (sched : Z -> list Z) (input : Z -> table A) (out : table A) (r : Z) : option (table A) :=
  match c r with
  | None => None
  | Some cr =>
      let ob := out_buffer c input in
      let sends q := match c q with Some cq => filter (not_this q) (side_msgs (to cq)) | None => [] end in
      match recv_all sends ob r (filter (not_this r) (side_msgs (fr cr))) with
      | None => None
      | Some ib =>
          match local_copy cr r (ob r) ib with
          | None => None
          | Some ib => fold_left (put_step (in_buf_dest cr) ib) (sched (nel (to cr))) (Some out)
          end
      end
  end.

(** remap_vector.hpp:36-54  the scattering list of vector_remap_t; index i gives {rank_to,iel_to}.
    None: the destination rank does not exist (CRASH) *)
Definition remap_list (N nel_fr : Z) (index : Z -> Z * Z) : option (list (Z * Z)) :=
  if forallb (fun i => let '(q, _) := index i in (0 <=? q) && (q <? N)) (seqZ nel_fr)
  then Some (map (fun i => let '(q, d) := index i in (i, d * N + q)) (seqZ nel_fr))
  else None.
Definition vector_remap (N : Z) (nel_fr : Z -> Z) (index : Z -> Z -> Z * Z) (r : Z) : option comm :=
  setup_scatter N (fun q => match remap_list N (nel_fr q) (index q) with Some l => l | None => [] end) r.
(** remap_vector.hpp:61-66: construction on all the ranks, then remap.  The loop of l.390 has nel_out iterations *)
Definition remap {A} (N : Z) (nel_fr : Z -> Z) (index : Z -> Z -> Z * Z) (sched : Z -> list Z) (input : Z -> table A) (out : table A) (r : Z) : option (table A) :=
  if forallb (fun q => match remap_list N (nel_fr q) (index q) with Some _ => true | None => false end) (seqZ N)
  then communicate (vector_remap N nel_fr index) sched input out r
  else None.
