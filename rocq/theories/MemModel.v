(* Model of src/base/memory_manager.hpp (MemoryManager, CPUMemoryManager).

   Pointers and sizes are integers, the null pointer is 0.  [std::map] is an
   association list sorted by key, [std::vector] a list.  The system allocator
   is not modelled: each call to [posix_memalign] takes its answer from outside
   ([None] = failure); which answers are possible is said in MemSpec.v.  The
   list of the blocks obtained from the system and not yet given back is part of
   the state, so that giving back something else is visible (undefined
   behaviour).  The GPU manager differs only by the system calls. *)
From Coq Require Import List Bool ZArith Lia.
From Verif Require Import ExtremeModel.
Import ListNotations.
Open Scope Z_scope.

(* CRASH(...) aborts; [Undef] is undefined behaviour *)
Inductive res (A : Type) := Ok (a : A) | Crash | Undef.
Arguments Ok {A}.
Arguments Crash {A}.
Arguments Undef {A}.

Definition rbind {A B} (r : res A) (f : A -> res B) : res B :=
  match r with Ok a => f a | Crash => Crash | Undef => Undef end.
Notation "'let!' x ':=' a 'in' b" := (rbind a (fun x => b))
  (at level 200, x pattern, right associativity).

(* std::map: find, insertion (operator[] followed by assignment), erase *)
Section Map.
  Context {V : Type}.
  Fixpoint mfind (k : Z) (m : list (Z * V)) : option V :=
    match m with
    | [] => None
    | (a, v) :: r => if a =? k then Some v else mfind k r
    end.
  Fixpoint mset (k : Z) (v : V) (m : list (Z * V)) : list (Z * V) :=
    match m with
    | [] => [(k, v)]
    | (a, w) :: r => if k <? a then (k, v) :: m
                     else if a =? k then (k, v) :: r else (a, w) :: mset k v r
    end.
  Fixpoint merase (k : Z) (m : list (Z * V)) : list (Z * V) :=
    match m with
    | [] => []
    | (a, w) :: r => if a =? k then r else (a, w) :: merase k r
    end.
End Map.

(* the counters are ValWithMax<Size>; Size=int64_t does not wrap here *)
Definition vmax := vwe Z.
Definition vadd (v : vmax) (x : Z) : vmax := vstep Z.ltb Z.add Z.sub MAXIMUM v (OpAdd x).
Definition vsub (v : vmax) (x : Z) : vmax := vstep Z.ltb Z.add Z.sub MAXIMUM v (OpSub x).

(* memory_manager.hpp: 73-94, the members, and the blocks held from the system *)
Record mm := mkMm {
  nAlloc : Z;
  used : list (Z * Z);
  cached : list (Z * list Z);
  usedSize : vmax;
  cachedSize : vmax;
  useCache : bool;
  nCachedReused : Z;
  heap : list (Z * Z)
}.

(* memory_manager.hpp: 333-338, the constructor *)
Definition mm_init : mm := mkMm 0 [] [] (vreset 0) (vreset 0) true 0 [].

(* memory_manager.hpp: 70 *)
Definition DEFAULT_ALIGNMENT := 16.

(* memory_manager.hpp: 97-105, pushToUsed *)
Definition pushToUsed (ptr size : Z) (m : mm) : mm :=
  mkMm (nAlloc m) (mset ptr size (used m)) (cached m) (vadd (usedSize m) size)
       (cachedSize m) (useCache m) (nCachedReused m) (heap m).

(* memory_manager.hpp: 110-130, popFromUsed *)
Definition popFromUsed (ptr : Z) (m : mm) : res (Z * mm) :=
  match mfind ptr (used m) with
  | None => Crash
  | Some size =>
      Ok (size, mkMm (nAlloc m) (merase ptr (used m)) (cached m)
                     (vsub (usedSize m) size) (cachedSize m) (useCache m)
                     (nCachedReused m) (heap m))
  end.

(* memory_manager.hpp: 133-141, pushToCache *)
Definition pushToCache (ptr size : Z) (m : mm) : mm :=
  let l := match mfind size (cached m) with Some l => l | None => [] end in
  mkMm (nAlloc m) (used m) (mset size (l ++ [ptr]) (cached m)) (usedSize m)
       (vadd (cachedSize m) size) (useCache m) (nCachedReused m) (heap m).

(* memory_manager.hpp: 144-148, isAligned (for alignment > 0) *)
Definition isAligned (ptr alignment : Z) : bool := ptr mod alignment =? 0.

(* memory_manager.hpp: 166-179, the search from the end of the list for an
   aligned element, and its removal *)
Fixpoint pop_last (f : Z -> bool) (l : list Z) : option (Z * list Z) :=
  match l with
  | [] => None
  | x :: r => match pop_last f r with
              | Some (y, r') => Some (y, x :: r')
              | None => if f x then Some (x, r) else None
              end
  end.

(* memory_manager.hpp: 151-189, popFromCache; 0 is the null pointer *)
Definition popFromCache (size alignment : Z) (m : mm) : Z * mm :=
  match mfind size (cached m) with
  | None => (0, m)
  | Some l =>
      match pop_last (fun p => isAligned p alignment) l with
      | None => (0, m)
      | Some (ptr, l') =>
          (ptr,
           mkMm (nAlloc m) (used m)
                (match l' with [] => merase size (cached m)
                             | _ => mset size l' (cached m) end)
                (usedSize m) (vsub (cachedSize m) size) (useCache m)
                (nCachedReused m) (heap m))
      end
  end.

(* memory_manager.hpp: 192-200, moveToCache *)
Definition moveToCache (ptr : Z) (m : mm) : res mm :=
  let! (size, m1) := popFromUsed ptr m in
  Ok (pushToCache ptr size m1).

(* memory_manager.hpp: 365-380, CPUMemoryManager::allocateRaw; [ans] is what
   posix_memalign answers *)
Definition allocateRaw (size : Z) (ans : option Z) (m : mm) : res (Z * mm) :=
  match ans with
  | None => Crash
  | Some ptr => Ok (ptr, mkMm (nAlloc m + 1) (used m) (cached m) (usedSize m)
                              (cachedSize m) (useCache m) (nCachedReused m)
                              ((ptr, size) :: heap m))
  end.

(* memory_manager.hpp: 383-387, CPUMemoryManager::deAllocateRaw: free ignores
   the null pointer and is undefined on anything else not in the heap *)
Definition deAllocateRaw (ptr : Z) (m : mm) : res mm :=
  if ptr =? 0 then Ok m
  else match mfind ptr (heap m) with
       | None => Undef
       | Some _ => Ok (mkMm (nAlloc m) (used m) (cached m) (usedSize m)
                            (cachedSize m) (useCache m) (nCachedReused m)
                            (merase ptr (heap m)))
       end.

(* conversion of the unsigned 64 bit product to int64_t *)
Definition to_int64 (x : Z) : Z := (x + 2 ^ 63) mod 2 ^ 64 - 2 ^ 63.

(* memory_manager.hpp: 221-250, provide<T> with sizeof(T)=[szT] *)
Definition provide (szT nel alignment : Z) (ans : option Z) (m : mm) : res (Z * mm) :=
  if nel =? 0 then Ok (0, m)
  else
    let size := to_int64 (szT * nel) in
    let (ptr, m1) := popFromCache size alignment m in
    let! (ptr, m2) :=
      if ptr =? 0 then allocateRaw size ans m1
      else Ok (ptr, mkMm (nAlloc m1) (used m1) (cached m1) (usedSize m1)
                         (cachedSize m1) (useCache m1) (nCachedReused m1 + 1)
                         (heap m1)) in
    Ok (ptr, pushToUsed ptr size m2).

(* memory_manager.hpp: 257-271, release (the caller's pointer is set to null) *)
Definition release (ptr : Z) (m : mm) : res mm :=
  if ptr =? 0 then Ok m
  else if useCache m then moveToCache ptr m
       else let! (_, m1) := popFromUsed ptr m in deAllocateRaw ptr m1.

(* memory_manager.hpp: 274-292, releaseAllUsedMemory: the iterator is moved on
   before the element is released and release touches no other element, so the
   pointers visited are those in the table at the beginning, in order *)
Fixpoint release_list (ptrs : list Z) (m : mm) : res mm :=
  match ptrs with
  | [] => Ok m
  | p :: r => let! m1 := release p m in release_list r m1
  end.
Definition releaseAllUsedMemory (m : mm) : res mm :=
  release_list (map fst (used m)) m.

(* memory_manager.hpp: 313-321, the inner loop of clearCache *)
Fixpoint clear_size (size : Z) (n : nat) (m : mm) : res mm :=
  match n with
  | O => Ok m
  | S n' => let (ptr, m1) := popFromCache size DEFAULT_ALIGNMENT m in
            let! m2 := deAllocateRaw ptr m1 in
            clear_size size n' m2
  end.

(* memory_manager.hpp: 295-323, clearCache.  [entries] are the (size,list) pairs
   from the iterator on: the list of a size is modified only at its own turn.
   With verbosity level 3 ([lv3]) line 315 dereferences the iterator which has
   already been moved on: undefined at the last entry. *)
Fixpoint clear_loop (lv3 : bool) (entries : list (Z * list Z)) (m : mm) : res mm :=
  match entries with
  | [] => Ok m
  | (size, l) :: r =>
      if lv3 && (match r with [] => true | _ => false end)
             && negb (match l with [] => true | _ => false end)
      then Undef
      else let! m1 := clear_size size (List.length l) m in
           clear_loop lv3 r m1
  end.
Definition clearCache (lv3 : bool) (m : mm) : res mm := clear_loop lv3 (cached m) m.

(* memory_manager.hpp: 203-206, enableCache *)
Definition enableCache (m : mm) : mm :=
  mkMm (nAlloc m) (used m) (cached m) (usedSize m) (cachedSize m) true
       (nCachedReused m) (heap m).

(* memory_manager.hpp: 209-214, disableCache *)
Definition disableCache (lv3 : bool) (m : mm) : res mm :=
  clearCache lv3 (mkMm (nAlloc m) (used m) (cached m) (usedSize m) (cachedSize m)
                       false (nCachedReused m) (heap m)).

(* memory_manager.hpp: 341-350, destroy *)
Definition destroy (lv3 : bool) (m : mm) : res mm :=
  let! m1 := releaseAllUsedMemory m in clearCache lv3 m1.

(* The calls a user can do *)
Inductive mop :=
| Provide (szT nel alignment : Z) (ans : option Z)
| Release (ptr : Z)
| ReleaseAll
| EnableCache
| DisableCache
| ClearCache.

(* one call: the pointer returned (0 if none) and the new state *)
Definition mexec (lv3 : bool) (o : mop) (m : mm) : res (Z * mm) :=
  match o with
  | Provide szT nel al ans => provide szT nel al ans m
  | Release ptr => let! m1 := release ptr m in Ok (0, m1)
  | ReleaseAll => let! m1 := releaseAllUsedMemory m in Ok (0, m1)
  | EnableCache => Ok (0, enableCache m)
  | DisableCache => let! m1 := disableCache lv3 m in Ok (0, m1)
  | ClearCache => let! m1 := clearCache lv3 m in Ok (0, m1)
  end.
