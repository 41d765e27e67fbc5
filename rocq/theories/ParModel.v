(** Model of the parallel loop launchers (src/threads/threads.hpp).

    A loop body run for one index is a sequential program made of single loads and stores; a parallel
    execution is an arbitrary interleaving, one memory access at a time, of the bodies launched.  *)
From Verif Require Import Base.

Section Mem.
Context {V : Type}.

Definition mem := Z -> V.
Definition store (m : mem) (a : Z) (v : V) : mem := fun x => if x =? a then v else m x.

(** one loop body: loads, stores and pure computation in between *)
Inductive prog : Type :=
| Ret
| Ld (a : Z) (k : V -> prog)
| St (a : Z) (v : V) (k : prog).

(** the body run alone *)
Fixpoint run (p : prog) (m : mem) : mem :=
  match p with
  | Ret => m
  | Ld a k => run (k (m a)) m
  | St a v k => run k (store m a v)
  end.

(** a single memory access *)
Definition pstep (p : prog) (m : mem) : prog * mem :=
  match p with
  | Ret => (Ret, m)
  | Ld a k => (k (m a), m)
  | St a v k => (k, store m a v)
  end.

Fixpoint set_nth {A} (l : list A) (i : nat) (x : A) : list A :=
  match l, i with
  | [], _ => []
  | _ :: t, O => x :: t
  | h :: t, S i' => h :: set_nth t i' x
  end.

(** the threads advance in the order told by the schedule, an arbitrary list of thread numbers *)
Fixpoint interleave (sched : list nat) (ps : list prog) (m : mem) : list prog * mem :=
  match sched with
  | [] => (ps, m)
  | i :: rest =>
      match nth_error ps i with
      | None => interleave rest ps m
      | Some p => let '(p', m') := pstep p m in interleave rest (set_nth ps i p') m'
      end
  end.

(** m' can be the memory after all the bodies of the indices launched are over
    (functions compared point by point) *)
Definition par_exec (launched : list Z) (body : Z -> prog) (m m' : mem) : Prop :=
  exists sched ps mf, interleave sched (map body launched) m = (ps, mf) /\
    Forall (fun p => p = Ret) ps /\ forall a, m' a = mf a.

(** SERIAL_LOOP, src/threads/threads.hpp:25-27 *)
Definition serial_loop (idx : list Z) (body : Z -> prog) (m : mem) : mem :=
  fold_left (fun m i => run (body i) m) idx m.
End Mem.
Arguments mem : clear implicits.
Arguments prog : clear implicits.

(** the index range of a loop *)
Definition rangeZ (mn mx : Z) : list Z := map (fun k => mn + k) (seqZ (mx - mn)).

(** openmpParallelFor, src/threads/threads.hpp:33-60: "for(I i=min;i<max;i++)", the runtime deals the
    indices to the threads in an unspecified way, each to one thread. The timing printouts are not modelled. *)
Definition openmp_indices (mn mx : Z) : list Z := rangeZ mn mx.

(** types a loop boundary can have *)
Inductive ity := I32 | I64.
Definition two32 : Z := 4294967296.
Definition to_int32 (z : Z) : Z := let r := z mod two32 in if r <? 2147483648 then r else r - two32.
Definition common (a b : ity) : ity := match a, b with I32, I32 => I32 | _, _ => I64 end.
Definition conv (t : ity) (z : Z) : Z := match t with I32 => to_int32 z | I64 => z end.

(** cudaGenericKernel, threads.hpp:77-96: "min+blockIdx.x*blockDim.x+threadIdx.x", where the last three are
    unsigned 32 bits integers, so that the sum is carried out modulo 2^32 unless min has 64 bits *)
Definition kernel_index (tmin tmax : ity) (mn b bs t : Z) : Z :=
  let p := (b * bs) mod two32 in
  let s := match tmin with
           | I32 => ((mn + p) mod two32 + t) mod two32
           | I64 => mn + p + t
           end in
  conv (common tmin tmax) s.

(** number of blocks, threads.hpp:205-217: loopLength has the common type, blockDimension.x is unsigned,
    the dim3 constructor takes an unsigned int *)
Definition grid_blocks (tmin tmax : ity) (mn mx bs : Z) : Z :=
  let t := common tmin tmax in
  let loopLength := conv t (mx - mn) in
  match t with
  | I32 => (((loopLength + bs) mod two32 - 1) mod two32) / bs
  | I64 => ((loopLength + bs - 1) / bs) mod two32
  end.

(** the indices f is called on by one launch, threads.hpp:93-95 and 158-220 (nothing if the loop is empty) *)
Definition cuda_indices (tmin tmax : ity) (mn mx bs : Z) : list Z :=
  let loopLength := conv (common tmin tmax) (mx - mn) in
  if 0 <? loopLength then
    filter (fun i => i <? mx)
      (flat_map (fun b => map (fun t => kernel_index tmin tmax mn b bs t) (seqZ bs))
                (seqZ (grid_blocks tmin tmax mn mx bs)))
  else [].

(** PAR, threads.hpp:340-376: the build either uses OpenMP threads or CUDA blocks *)
Inductive backend := OpenMP | Cuda (tmin tmax : ity) (bs : Z).
Definition launched (b : backend) (mn mx : Z) : list Z :=
  match b with
  | OpenMP => openmp_indices mn mx
  | Cuda tmin tmax bs => cuda_indices tmin tmax mn mx bs
  end.
Definition PAR {V} (b : backend) (mn mx : Z) (body : Z -> prog V) (m m' : mem V) : Prop :=
  par_exec (launched b mn mx) body m m'.

(** ---- autotuning of the block size, src/threads/benchmarks.hpp:208-322 (only in the CUDA build) ----

    Field contents are memories indexed by field number; [backup] is the pointer kept by each field. *)
Section Tune.
Context {V : Type}.
Definition fields := Z -> mem V.
Inductive bptr := NoBackup | Backup (m : mem V) | Dangling.
Record tstate := { flds : fields; baks : Z -> bptr }.

Definition updZ {A} (f : Z -> A) (i : Z) (v : A) : Z -> A := fun j => if j =? i then v else f j.

(** action registered by Field::getWritable to be carried out before the benchmark, base/field.hpp:1085-1090:
    "backup=new Field(...); *backup=*this" *)
Definition begin_action (f : Z) (s : tstate) : tstate :=
  {| flds := flds s; baks := updZ (baks s) f (Backup (flds s f)) |}.

(** and after it, base/field.hpp:1092-1097: "*this=*backup; delete backup" (the pointer is not reset);
    None: use of a deleted or never allocated backup *)
Definition end_action (f : Z) (s : tstate) : option tstate :=
  match baks s f with
  | Backup m => Some {| flds := updZ (flds s) f m; baks := updZ (baks s) f Dangling |}
  | _ => None
  end.

Fixpoint end_actions (l : list Z) (s : tstate) : option tstate :=
  match l with
  | [] => Some s
  | f :: r => match end_action f s with None => None | Some s' => end_actions r s' end
  end.

(** block sizes tried: benchmarks.hpp:270 "for(testBlockSize=min;testBlockSize<=max;testBlockSize*=2)", min=1 *)
Fixpoint block_sizes (fuel : nat) (bs mx : Z) : list Z :=
  match fuel with
  | O => []
  | S k => if bs <=? mx then bs :: block_sizes k (bs * 2) mx else []
  end.

(** getOptimalBlockSize, benchmarks.hpp:208-322, followed by the launch of cudaParallelFor, threads.hpp:238-254.
    [captured]: fields captured with TO_WRITE, in order; [launch bs s s']: s' is a possible outcome of one
    launch; [tuned]: the block size found in the archive for this kernel and loop length, if any;
    [choose]: how timing picks one of the sizes tried. The archive file and timing are not modelled.
    None: memory error or CRASH. *)
Inductive launches (launch : Z -> fields -> fields -> Prop) : list Z -> fields -> fields -> Prop :=
| la_nil s s' : (forall f a, s' f a = s f a) -> launches launch [] s s'
| la_cons b l s s1 s2 : launch b s s1 -> launches launch l s1 s2 -> launches launch (b :: l) s s2.

(** all the launches of the tuning: for each size one warm up and nBench=100 repetitions *)
Definition bench_launches (mx : Z) : list Z := flat_map (fun b => repeat b 101) (block_sizes 31 1 mx).

Inductive tuned_run (launch : Z -> fields -> fields -> Prop) (captured : list Z) (nMaxThreads : Z)
  (doNotBackup : bool) : option Z -> tstate -> option tstate -> Prop :=
| tr_known bs s f' : 0 < bs <= nMaxThreads -> launch bs (flds s) f' ->
    tuned_run launch captured nMaxThreads doNotBackup (Some bs) s (Some {| flds := f'; baks := baks s |})
| tr_known_crash bs s : ~ (0 < bs <= nMaxThreads) ->
    tuned_run launch captured nMaxThreads doNotBackup (Some bs) s None
| tr_tune_crash s : nMaxThreads <= 1 -> tuned_run launch captured nMaxThreads doNotBackup None s None
| tr_tune_ub s s1 f1 : 1 < nMaxThreads -> doNotBackup = false ->
    s1 = fold_left (fun s f => begin_action f s) captured s ->
    launches launch (bench_launches nMaxThreads) (flds s1) f1 ->
    end_actions captured {| flds := f1; baks := baks s1 |} = None ->
    tuned_run launch captured nMaxThreads doNotBackup None s None
| tr_tune s s1 f1 s2 bs f' : 1 < nMaxThreads -> doNotBackup = false ->
    s1 = fold_left (fun s f => begin_action f s) captured s ->
    launches launch (bench_launches nMaxThreads) (flds s1) f1 ->
    end_actions captured {| flds := f1; baks := baks s1 |} = Some s2 ->
    In bs (block_sizes 31 1 nMaxThreads) ->
    launch bs (flds s2) f' ->
    tuned_run launch captured nMaxThreads doNotBackup None s (Some {| flds := f'; baks := baks s2 |})
| tr_tune_nested s f1 bs f' : 1 < nMaxThreads -> doNotBackup = true ->
    launches launch (bench_launches nMaxThreads) (flds s) f1 ->
    In bs (block_sizes 31 1 nMaxThreads) ->
    launch bs f1 f' ->
    tuned_run launch captured nMaxThreads doNotBackup None s (Some {| flds := f'; baks := baks s |}).
End Tune.
