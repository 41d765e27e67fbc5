(** Arbitrary paths of gauge links, all the ranks together: src/operations/su3_paths/arbitrary.{hpp,cpp}, paths_calculation_structure.
    [None] stands for a CRASH, a hang or undefined behaviour.  The matrices are values of any type T with the operations used by the code.
    The array link_for_movements is a table without bounds: the code writes one cell past its end (see [switch_to_next_step]), and that write is
    assumed to be harmless.  Conversions from int64_t to int wrap; sums and shifts of int which do not fit are None.
    Simplifications: buffers filled by a loop from the beginning are lists; printing, allocation and release are left out. *)
From Verif Require Import Base GeometryModel HaloModel EoModel.

(** arbitrary.hpp:12-16 *)
Definition START_PATH_FLAG : Z := 1.
Definition DAG_LINK_FLAG : Z := 2.
Definition NONLOC_LINK_FLAG : Z := 4.
Definition SUMM_TO_PREVIOUS_PATH_FLAG : Z := 8.
Definition nposs_path_flags : Z := 4.

(** the commands of the user *)
Inductive cmd := StartNewPathFromLoclx (lx : Z) | SummToPreviousPath | MoveForward (mu : nat) | MoveBackward (mu : nat) | StopCurrentPath.

(** arbitrary.hpp:20-34 *)
Record movement_link_id := mkLink { mov : Z; link_id : Z; ord : Z }.
(** arbitrary.hpp:90-105  the fields used while recording *)
Record paths_rec := mkRec { npaths : Z; ntot_mov : Z; link_for_movements : table Z; nonloc_list : list movement_link_id;
                            cur_path : Z; cur_mov : Z; pos : Z }.

Section Recording.
Context (g : grid) (rank : Z).
(** arbitrary.hpp:26-33 *)
Definition set_link (ext_mov gx : Z) (mu : nat) : option movement_link_id :=
  match getLoclxAndRankOfGlblx g gx with
  | Some (rx, lx) =>
      if in_int (gx * 4 + Z.of_nat mu) then
        Some (mkLink ext_mov (gx * 4 + Z.of_nat mu)
                (wrap32 ((Z.rem (rank + nranks g - rx) (nranks g) * locVol g + lx) * 4 + Z.of_nat mu)))
      else None
  | None => None
  end.
(** link_for_movements[i]+=v *)
Definition lfm_add (l : table Z) (i v : Z) : option (table Z) :=
  match l i with Some a => if in_int v && in_int (a + v) then Some (tset l i (a + v)) else None | None => None end.
(** arbitrary.hpp:39-64 *)
Definition paths_init (ext_npaths ext_ntot_mov : Z) : paths_rec := mkRec ext_npaths ext_ntot_mov tempty [] 0 0 0.
(** arbitrary.hpp:108-110 *)
Definition start_new_path_from_loclx (lx : Z) (s : paths_rec) : option paths_rec :=
  match glblxOfLoclx (rank_labels g rank) lx with
  | Some p => Some (mkRec (npaths s) (ntot_mov s) (tset (link_for_movements s) (cur_mov s) START_PATH_FLAG) (nonloc_list s) (cur_path s) (cur_mov s) (wrap32 p))
  | None => None
  end.
(** arbitrary.hpp:111-116 *)
Definition summ_to_previous_path (s : paths_rec) : option paths_rec :=
  if cur_path s =? 0 then None else
  match link_for_movements s (cur_mov s) with
  | None => None
  | Some f =>
      let cp := if Z.land f SUMM_TO_PREVIOUS_PATH_FLAG =? 0 then cur_path s - 1 else cur_path s in
      match lfm_add (link_for_movements s) (cur_mov s) SUMM_TO_PREVIOUS_PATH_FLAG with
      | Some l => Some (mkRec (npaths s) (ntot_mov s) l (nonloc_list s) cp (cur_mov s) (pos s))
      | None => None
      end
  end.
(** arbitrary.hpp:117-120: the last movement writes the cell of index ntot_mov, which has not been allocated *)
Definition switch_to_next_step (s : paths_rec) : option paths_rec :=
  let m := cur_mov s + 1 in
  if m >? ntot_mov s then None else
  Some (mkRec (npaths s) (ntot_mov s) (tset (link_for_movements s) m 0) (nonloc_list s) (cur_path s) m (pos s)).
(** arbitrary.cpp:42-49 and 70-77: the link (gx,mu) enters the current movement *)
Definition use_link (gx : Z) (mu : nat) (nx : Z) (s : paths_rec) : option paths_rec :=
  match getLoclxAndRankOfGlblx g gx with
  | None => None
  | Some (rx, lx) =>
      if rx =? rank then
        match lfm_add (link_for_movements s) (cur_mov s) (Z.shiftl (lx * 4 + Z.of_nat mu) nposs_path_flags) with
        | Some l => switch_to_next_step (mkRec (npaths s) (ntot_mov s) l (nonloc_list s) (cur_path s) (cur_mov s) nx)
        | None => None
        end
      else
        match set_link (cur_mov s) gx mu with
        | Some e => switch_to_next_step (mkRec (npaths s) (ntot_mov s) (link_for_movements s) (nonloc_list s ++ [e]) (cur_path s) (cur_mov s) nx)
        | None => None
        end
  end.
(** arbitrary.cpp:30-54 *)
Definition move_forward (mu : nat) (s : paths_rec) : option paths_rec :=
  if cur_mov s =? ntot_mov s then None else
  match glblxNeighup g (pos s) mu with
  | Some nx => use_link (pos s) mu (wrap32 nx) s
  | None => None
  end.
(** arbitrary.cpp:57-82 *)
Definition move_backward (mu : nat) (s : paths_rec) : option paths_rec :=
  match lfm_add (link_for_movements s) (cur_mov s) DAG_LINK_FLAG with
  | None => None
  | Some l =>
      if cur_mov s =? ntot_mov s then None else
      match glblxNeighdw g (pos s) mu with
      | Some nx => use_link (wrap32 nx) mu (wrap32 nx) (mkRec (npaths s) (ntot_mov s) l (nonloc_list s) (cur_path s) (cur_mov s) (pos s))
      | None => None
      end
  end.
(** arbitrary.hpp:123-126 *)
Definition stop_current_path (s : paths_rec) : option paths_rec :=
  if cur_path s + 1 >? npaths s then None else
  Some (mkRec (npaths s) (ntot_mov s) (link_for_movements s) (nonloc_list s) (cur_path s + 1) (cur_mov s) (pos s)).
Definition exec (o : option paths_rec) (c : cmd) : option paths_rec :=
  match o with
  | None => None
  | Some s =>
      match c with
      | StartNewPathFromLoclx lx => start_new_path_from_loclx lx s
      | SummToPreviousPath => summ_to_previous_path s
      | MoveForward mu => move_forward mu s
      | MoveBackward mu => move_backward mu s
      | StopCurrentPath => stop_current_path s
      end
  end.
Definition record_paths (np nm : Z) (cs : list cmd) : option paths_rec := fold_left exec cs (Some (paths_init np nm)).

(** arbitrary.cpp:93-99: assigns the non local links to the movements; [n] is nind_nonloc_links.  l is the sorted list *)
Definition next_ind (e : movement_link_id) (l : list movement_link_id) (n : Z) : Z :=
  match l with [] => n + 1 | e' :: _ => if link_id e =? link_id e' then n else n + 1 end.
Fixpoint assign (l : list movement_link_id) (n : Z) (t : table Z) : option (table Z) :=
  match l with
  | [] => Some t
  | e :: l => match lfm_add t (mov e) (Z.shiftl n nposs_path_flags + NONLOC_LINK_FLAG) with
              | Some t => assign l (next_ind e l n) t
              | None => None
              end
  end.
(** arbitrary.cpp:101-109: the list of independent links; the last link of each group is written in the cell of the group *)
Fixpoint ind_nonloc_links (l : list movement_link_id) : list Z :=
  match l with
  | [] => []
  | e :: l => match l with
              | [] => [link_id e]
              | e' :: _ => if link_id e =? link_id e' then ind_nonloc_links l else link_id e :: ind_nonloc_links l
              end
  end.
(** arbitrary.cpp:85-99 *)
Definition finished_last_path (sort : list movement_link_id -> list movement_link_id) (s : paths_rec) : option (paths_rec * list Z) :=
  if negb (cur_path s =? npaths s) then None else
  if negb (cur_mov s =? ntot_mov s) then None else
  let l := sort (nonloc_list s) in
  match assign l 0 (link_for_movements s) with
  | Some t => Some (mkRec (npaths s) (ntot_mov s) t l (cur_path s) (cur_mov s) (pos s), ind_nonloc_links l)
  | None => None
  end.
End Recording.

Section Comm.
Context (g : grid).
Notation N := (nranks g).
(** arbitrary.cpp:128-136: counts the links to be asked to rank q *)
Fixpoint count_asked (ind : list Z) (q : Z) : option Z :=
  match ind with
  | [] => Some 0
  | t :: ind => match rankHostingGlblx g (Z.shiftr t 2), count_asked ind q with
                | Some rx, Some n => Some (if rx =? q then n + 1 else n)
                | _, _ => None
                end
  end.
(** arbitrary.cpp:144-163 *)
Fixpoint links_to_ask (ind : list Z) (q : Z) : option (list Z) :=
  match ind with
  | [] => Some []
  | t :: ind => match getLoclxAndRankOfGlblx g (Z.shiftr t 2), links_to_ask ind q with
                | Some (rx, lx), Some l => Some (if rx =? q then lx * 4 + Z.rem t 4 :: l else l)
                | _, _ => None
                end
  end.
(** what a rank keeps: arbitrary.hpp:104-105 *)
Record comms := mkComms { ranks_to_send : list Z; nlinks_to_send : list Z; links_to_send : list Z; ranks_to_recv : list Z; nlinks_to_recv : list Z }.
(** the message that rank q sends to the rank it receives from, at displacement delta: destination, tag, number and list of links *)
Definition ask (ind : Z -> list Z) (delta q : Z) : option (Z * Z * Z * list Z) :=
  let rank_to_recv := Z.rem (q + N - delta) N in
  match count_asked (ind q) rank_to_recv, links_to_ask (ind q) rank_to_recv with
  | Some n, Some l => if n =? Z.of_nat (length l) then Some (rank_to_recv, rank_to_recv * N + q, n, l) else None
  | _, _ => None
  end.
(** arbitrary.cpp:122-213, one displacement on rank r *)
Definition setup_step (ind : Z -> list Z) (r : Z) (o : option comms) (delta : Z) : option comms :=
  let rank_to_send := Z.rem (r + delta) N in
  let rank_to_recv := Z.rem (r + N - delta) N in
  match o, ask ind delta r, ask ind delta rank_to_send with
  | Some c, Some (_, _, nrecv, _), Some (dest, tg, nsend, lsend) =>
      if (dest =? r) && (tg =? r * N + rank_to_send) then
        let c := if negb (nsend =? 0) then mkComms (ranks_to_send c ++ [rank_to_send]) (nlinks_to_send c ++ [nsend]) (links_to_send c ++ lsend) (ranks_to_recv c) (nlinks_to_recv c) else c in
        Some (if negb (nrecv =? 0) then mkComms (ranks_to_send c) (nlinks_to_send c) (links_to_send c) (ranks_to_recv c ++ [rank_to_recv]) (nlinks_to_recv c ++ [nrecv]) else c)
      else None
  | _, _, _ => None
  end.
Definition setup_sender_receivers (ind : Z -> list Z) (r : Z) : option comms :=
  fold_left (setup_step ind r) (map (fun d => d + 1) (seqZ (N - 1))) (Some (mkComms [] [] [] [] [])).

(** arbitrary.cpp:217-229 and 232-241: offset of each message in its buffer *)
Fixpoint with_offsets (o : Z) (l : list (Z * Z)) (tag_of : Z -> Z) : list msg :=
  match l with [] => [] | (q, n) :: l => mkMsg q (tag_of q) o n :: with_offsets (o + n) l tag_of end.
Definition recv_msgs (c : comms) (r : Z) : list msg := with_offsets 0 (combine (ranks_to_recv c) (nlinks_to_recv c)) (fun q => r * N + q).
Definition send_msgs (c : comms) (r : Z) : list msg := with_offsets 0 (combine (ranks_to_send c) (nlinks_to_send c)) (fun q => q * N + r).
(** arbitrary.cpp:217-263 (gather_nonloc_lx), 266-288 (gather_nonloc_eo): [fetch q i] is the link of index i of rank q *)
Definition gather_nonloc {T} (cs : Z -> option comms) (fetch : Z -> Z -> option T) (r : Z) : option (table T) :=
  match cs r with
  | None => None
  | Some c =>
      recv_all (fun q => match cs q with Some c => send_msgs c q | None => [] end)
               (fun q i => match cs q with
                           | Some c => if 0 <=? i then match nth_error (links_to_send c) (Z.to_nat i) with Some t => fetch q t | None => None end else None
                           | None => None end) r (recv_msgs c r)
  end.
End Comm.

Section Compute.
Context {T : Type} (zero one : T) (mul muldag add : T -> T -> T).
(** arbitrary.cpp:258, 335-336: the links of the rank as one array *)
Definition fetch_lx (conf : Z -> Z -> nat -> option T) (q i : Z) : option T := conf q (Z.quot i 4) (Z.to_nat (Z.rem i 4)).
(** arbitrary.cpp:279-282, 381-385: conf[p][eo][mu] *)
Definition fetch_eo (g : grid) (conf : Z -> Z -> Z -> nat -> option T) (q i : Z) : option T :=
  let e := set_eo_geometry g (rank_labels g q) in
  match loclx_parity e (Z.quot i 4), loceo_of_loclx e (Z.quot i 4) with
  | Some p, Some eo => conf q p eo (Z.to_nat (Z.rem i 4))
  | _, _ => None
  end.
(** running: path being computed, its product, what has been stored *)
Record run := mkRun { ipath : Z; run_path : T; stored : table T }.
Definition summassign (t : table T) (i : Z) (v : T) : option (table T) :=
  match t i with Some a => Some (tset t i (add a v)) | None => None end.
(** arbitrary.cpp:305-345, 359-400  one movement *)
Definition compute_step (np : Z) (lfm : table Z) (nonloc_links : table T) (fetch : Z -> option T) (o : option run) (imov : Z) : option run :=
  match o, lfm imov with
  | Some s, Some v =>
      let ilink := Z.shiftr v nposs_path_flags in
      let tag := Z.rem v (Z.shiftl 1 nposs_path_flags) in
      let start := Z.land tag START_PATH_FLAG in
      let herm := Z.land tag DAG_LINK_FLAG in
      let nonloc := Z.land tag NONLOC_LINK_FLAG in
      let summ_to_previous := Z.land tag SUMM_TO_PREVIOUS_PATH_FLAG in
      let started :=
        if start =? 1 then
          if negb (imov =? 0) then
            match summassign (stored s) (ipath s) (run_path s) with
            | None => None
            | Some t => if summ_to_previous =? 0 then
                          if ipath s + 1 <? np then Some (mkRun (ipath s + 1) one (tset t (ipath s + 1) zero)) else None
                        else Some (mkRun (ipath s) one t)
            end
          else if ipath s <? np then Some (mkRun (ipath s) one (tset (stored s) (ipath s) zero)) else None
        else Some s in
      match started, (if negb (nonloc =? 0) then nonloc_links ilink else fetch ilink) with
      | Some s, Some l => Some (mkRun (ipath s) (if negb (herm =? 0) then muldag (run_path s) l else mul (run_path s) l) (stored s))
      | _, _ => None
      end
  | _, _ => None
  end.
(** arbitrary.cpp:291-354 (compute_lx), 356-409 (compute_eo): what is found in paths; [before] was there *)
Definition compute (s : paths_rec) (nonloc_links : table T) (fetch : Z -> option T) (before : table T) : option (table T) :=
  match fold_left (compute_step (npaths s) (link_for_movements s) nonloc_links fetch) (seqZ (ntot_mov s)) (Some (mkRun 0 zero before)) with
  | None => None
  | Some st =>
      match summassign (stored st) (npaths s - 1) (run_path st) with
      | Some t => if negb (ipath st =? npaths s - 1) then None else Some t
      | None => None
      end
  end.
End Compute.

(** the whole use of the structure: all the ranks declare, record and finish their paths, then compute them *)
Section All.
Context (g : grid) (sort : Z -> list movement_link_id -> list movement_link_id).
Definition finished (np nm : Z -> Z) (cs : Z -> list cmd) (r : Z) : option (paths_rec * list Z) :=
  match record_paths g r (np r) (nm r) (cs r) with Some s => finished_last_path (sort r) s | None => None end.
Definition ind_list (np nm : Z -> Z) (cs : Z -> list cmd) (r : Z) : list Z := match finished np nm cs r with Some (_, l) => l | None => [] end.
Definition compute_paths {T} (zero one : T) (mul muldag add : T -> T -> T) (np nm : Z -> Z) (cs : Z -> list cmd)
    (fetch : Z -> Z -> option T) (before : Z -> table T) (r : Z) : option (table T) :=
  match finished np nm cs r, gather_nonloc g (setup_sender_receivers g (ind_list np nm cs)) fetch r with
  | Some (s, _), Some nl => compute zero one mul muldag add s nl (fetch r) (before r)
  | _, _ => None
  end.
End All.
