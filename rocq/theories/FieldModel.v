(** The Field object: storage index, references, validity flags (src/base/field.hpp).  The communications are those of HaloModel. *)
From Verif Require Import Base GeometryModel HaloModel.
Open Scope Z_scope.

(** ** Storage *)

(** field.hpp:93 *)
Inductive layout := CPU | GPU.

(** conversion to int of the int64_t externalSize passed to "const int& externalSize", field.hpp:410, 455 *)
Definition to_int (z : Z) : Z := (z + 2147483648) mod 4294967296 - 2147483648.

(** field.hpp:408-416 and 451-456 *)
Definition index (l : layout) (nInternalDegs externalSize site internalDeg : Z) : Z :=
  match l with
  | CPU => internalDeg + nInternalDegs * site
  | GPU => site + to_int externalSize * internalDeg
  end.

(** sizeof of an array of arrays of Fund, with the given extents *)
Fixpoint sizeof (sizeofFund : Z) (exts : list Z) : Z :=
  match exts with [] => sizeofFund | n :: r => n * sizeof sizeofFund r end.
(** field.hpp:289-290 *)
Definition nDegs (exts : list Z) : Z := sizeof 1 exts.

(** SubscribedField, field.hpp:1832-1903: [ptr] is the byte offset, [exts] the extents of the remaining type P.
    operator[] l. 1877-1886; eval l. 1848-1855 when no extent is left *)
Fixpoint subscribe (sizeofFund : Z) (exts : list Z) (ptr : Z) (idx : list Z) : option Z :=
  match exts, idx with
  | [], [i] => Some (Z.quot (to_int (ptr + sizeofFund * i)) sizeofFund)
  | _ :: r, i :: t => subscribe sizeofFund r (ptr + i * sizeof sizeofFund exts) t
  | _, _ => None
  end.

(** f[site][i1]...[ik]: the number of the element of _data reached.  field.hpp:475-494: a scalar type calls (site,0); the CPU
    layout indexes the C array (byte address divided by the size of Fund); the GPU one builds a SubscribedField with null ptr *)
Fixpoint c_array (sizeofFund : Z) (exts : list Z) (addr : Z) (idx : list Z) : option Z :=
  match exts, idx with
  | [], [] => Some (Z.quot addr sizeofFund)
  | _ :: r, i :: t => c_array sizeofFund r (addr + i * sizeof sizeofFund r) t
  | _, _ => None
  end.
Definition element (l : layout) (sizeofFund : Z) (exts : list Z) (externalSize site : Z) (idx : list Z) : option Z :=
  match exts with
  | [] => match idx with [] => Some (index l (nDegs exts) externalSize site 0) | _ => None end
  | _ :: r =>
      match l with
      | CPU => c_array sizeofFund exts (site * sizeof sizeofFund exts) idx
      | GPU => option_map (index l (nDegs exts) externalSize site) (subscribe sizeofFund r 0 idx)
      end
  end.

(** the elements of the SubscribedField touched by its operator+= and -=, field.hpp:1864-1872, right after f[site] (null ptr):
    P has the extents [r] *)
Definition selfop_degs (sizeofFund : Z) (r : list Z) (nInternalDegs : Z) : list Z :=
  map (fun i => Z.quot (to_int (i * sizeof sizeofFund r)) sizeofFund) (seqZ nInternalDegs).

(** ** Halo exchange, word by word.  [w] is the memory of the field on one rank, [n] the number of degrees of freedom *)
Section Words.
Context {V : Type}.

(** field.hpp:1131-1147 fillSendingBufWith *)
Definition fill_send_words (l : layout) (n ext : Z) (surf : table Z) (w : table V) : table V :=
  fun k => match surf (k / n) with Some s => w (index l n ext s (k mod n)) | None => None end.
(** field.hpp:1198-1217 fillHaloOrEdgesWithReceivingBuf: the loop on the sites (any order) and on the degrees of freedom *)
Definition fill_from_recv_words (l : layout) (n ext offset : Z) (sites : list Z) (rb w : table V) : table V :=
  fold_left (fun w (p : Z * Z) => let '(i, d) := p in
      fun a => if a =? index l n ext (offset + i) d then rb (d + n * i) else w a)
    (list_prod sites (seqZ n)) w.
(** field.cpp:11-61: offset and size in bytes are bps times those in sites; here in words *)
Definition scale (n : Z) (m : msg) : msg := mkMsg (peer m) (tag m) (off m * n) (len m * n).

(** field.hpp:1287-1320: start and finishCommunicatingHalo on rank r; [order] is the order of the parallel loop filling the halo *)
Definition updateHaloWords (g : grid) (l : layout) (n ext : Z) (sched : Z -> list Z) (order : list Z) (w : Z -> table V) (r : Z)
  : option (table V) :=
  let rcs q := coordOfRank g q in
  let sb q := fill_send_words l n ext (findSurfOfBord g (rcs q) (rank_labels g q) (sched q)) (w q) in
  option_map (fun rb => fill_from_recv_words l n ext (locVol g) order rb (w r))
    (recv_all (fun q => map (scale n) (halo_sends g (rcs q) 1)) sb r (map (scale n) (halo_recvs g (rcs r) 1))).
End Words.

(** ** The object: references and flags.  All the ranks run the same program, so that the flags are the same on all of them *)
Section Object.
Context {A : Type} (g : grid).

(** field.hpp:108 *)
Inductive presence := WITHOUT_HALO | WITH_HALO | WITH_HALO_EDGES.

Record field := mkField {
  nRef : Z;                    (* field.hpp:657 *)
  haloIsValid : bool;          (* l. 690 *)
  edgesAreValid : bool;        (* l. 698 *)
  pres : presence;             (* l. 678 *)
  content : Z -> table A       (* the data of all the ranks *)
}.
(** l. 1008-1020 *)
Definition new_field (p : presence) (garbage : Z -> table A) : field := mkField 0 false false p garbage.

(** what a program does on a field *)
Inductive op :=
| GetRef (writable : bool)                 (* getWritable, getReadable or a copy of a FieldRef *)
| DropRef (writable : bool)                (* destructor of a FieldRef *)
| Write (f : Z -> table A -> table A)      (* assignments to the sites of the bulk, on each rank *)
| InvalidateHalo | InvalidateEdges
| UpdateHalo (force : bool) (sched : Z -> list Z)
| UpdateEdges (force : bool) (sched : Z -> list Z)
| CudaCopy (src : Z -> table A).           (* operator= from a field of another memory space *)

(** all the ranks take part in a communication; None when one of them fails *)
Definition comm (upd : (Z -> table A) -> Z -> option (table A)) (d : Z -> table A) : option (Z -> table A) :=
  if forallb (fun r => match upd d r with Some _ => true | None => false end) (seqZ (nranks g))
  then Some (fun r => match upd d r with Some t => t | None => d r end) else None.

(** l. 371-384, 1322-1327 *)
Definition do_updateHalo (force : bool) sched (s : field) : option field :=
  if force || negb (haloIsValid s) then
    match pres s with
    | WITHOUT_HALO => None      (* CRASH in assertHasHalo *)
    | _ => option_map (fun d => mkField (nRef s) true (edgesAreValid s) (pres s) d) (comm (updateHalo g sched) (content s))
    end
  else Some s.

Definition step (s : field) (o : op) : option field :=
  match o with
  | GetRef _ => Some (mkField (nRef s + 1) (haloIsValid s) (edgesAreValid s) (pres s) (content s))     (* l. 541-550, 562-574 *)
  | DropRef w =>                                                                                        (* l. 596-611 *)
      let n := nRef s - 1 in
      if (n =? 0) && w then Some (mkField n false false (pres s) (content s))
      else Some (mkField n (haloIsValid s) (edgesAreValid s) (pres s) (content s))
  | Write f => Some (mkField (nRef s) (haloIsValid s) (edgesAreValid s) (pres s)
       (fun r i => if (0 <=? i) && (i <? locVol g) then f r (content s r) i else content s r i))
  | InvalidateHalo => Some (mkField (nRef s) false false (pres s) (content s))                          (* l. 1122-1127 *)
  | InvalidateEdges => Some (mkField (nRef s) (haloIsValid s) false (pres s) (content s))               (* l. 1116-1119 *)
  | UpdateHalo force sched => do_updateHalo force sched s
  | UpdateEdges force sched =>                                                                          (* l. 387-402 *)
      match do_updateHalo force sched s with
      | None => None
      | Some s =>
          if force || negb (edgesAreValid s) then
            match pres s with
            | WITH_HALO_EDGES =>                                     (* l. 1350-1364: the flag set is that of the halo *)
                option_map (fun d => mkField (nRef s) true (edgesAreValid s) (pres s) d) (comm (updateEdges g sched) (content s))
            | _ => None                                              (* CRASH in assertHasEdges *)
            end
          else Some s
      end
  | CudaCopy src => Some (mkField (nRef s) (haloIsValid s) (edgesAreValid s) (pres s) src)              (* l. 1428-1449 *)
  end.
Definition run (s : field) (h : list op) : option field :=
  fold_left (fun o e => match o with Some s => step s e | None => None end) h (Some s).

(** a loop PAR(...,CAPTURE(...),...): [caps] are the references to this field captured by the body, true for TO_WRITE, in the order
    they are written.  They are members of the lambda, so created in that order and destroyed in the opposite one; [copies]
    are copies of the lambda made by the functions it is passed to, destroyed in between *)
Definition par_loop (caps : list bool) (copies : nat) (body : option (Z -> table A -> table A)) : list op :=
  map GetRef caps ++ concat (repeat (map GetRef caps) copies) ++
  (match body with Some f => [Write f] | None => [] end) ++
  concat (repeat (map DropRef (rev caps)) copies) ++ map DropRef (rev caps).
End Object.
