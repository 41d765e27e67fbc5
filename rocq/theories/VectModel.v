(* Model of src/base/vectors.cpp and vectors.hpp: the registry of the named
   vectors, a doubly linked list of headers placed just before the data.

   The memory is a partial function from the address of a header to its content;
   the address of the data is that of the header plus the size of the header.
   Tag, type, file and line (used only for messages and for the check of
   [vector_reset]) are not modelled.  int64_t sizes do not wrap here.  The null
   pointer is 0.  The system allocator is outside: [ans] is the answer of malloc. *)
From Coq Require Import List Bool ZArith Lia.
From Verif Require Import MemModel.
Import ListNotations.
Open Scope Z_scope.

(* vectors.hpp: 34-52, the header, with the bytes that follow it *)
Record nvect := mkV {
  v_nel : Z;
  v_size : Z;
  v_prev : Z;
  v_next : Z;
  v_flag : Z;
  v_data : list Z
}.

(* vectors.hpp: 23-24, 36-52: two int64, three strings of 20 characters, an int, two
   pointers, an uint32 and the padding up to a multiple of 16 *)
Definition NISSA_VECT_ALIGNMENT := 16.
Definition nissa_vect_unpadded := 2 * 8 + 3 * 20 + 4 + 2 * 8 + 4.
Definition nissa_vect_sizeof :=
  nissa_vect_unpadded +
  (NISSA_VECT_ALIGNMENT - nissa_vect_unpadded mod NISSA_VECT_ALIGNMENT) mod NISSA_VECT_ALIGNMENT.

(* vectors.hpp: 80-86, the global variables; [vs_inited] is
   main_arr equal to the address just after main_vect *)
Record vstate := mkVs {
  vs_mem : Z -> option nvect;
  vs_last : Z;
  vs_required : Z;
  vs_max : Z;
  vs_inited : bool
}.

Section Registry.
  (* address of main_vect *)
  Variable main : Z.

  Definition mupd (m : Z -> option nvect) (a : Z) (v : option nvect) : Z -> option nvect :=
    fun b => if b =? a then v else m b.

  (* *a, undefined if there is nothing there *)
  Definition deref (m : Z -> option nvect) (a : Z) : res nvect :=
    match m a with Some v => Ok v | None => Undef end.

  Definition with_next (v : nvect) (n : Z) :=
    mkV (v_nel v) (v_size v) (v_prev v) n (v_flag v) (v_data v).
  Definition with_prev (v : nvect) (p : Z) :=
    mkV (v_nel v) (v_size v) p (v_next v) (v_flag v) (v_data v).
  Definition with_content (v : nvect) (fl : Z) (d : list Z) :=
    mkV (v_nel v) (v_size v) (v_prev v) (v_next v) fl d.

  (* the program starts with zeroed global variables *)
  Definition vs_start : vstate :=
    mkVs (fun a => if a =? main then Some (mkV 0 0 0 0 0 []) else None) 0 0 0 false.

  (* vectors.cpp: 121-140, initialize_main_vect *)
  Definition initialize_main_vect (s : vstate) : vstate :=
    if vs_inited s then s
    else mkVs (mupd (vs_mem s) main
                 (match vs_mem s main with
                  | Some v => Some (mkV 0 0 0 0 (v_flag v) [])
                  | None => None end))
              main 0 0 true.

  (* vectors.cpp: 26-29, get_vect *)
  Definition get_vect (ptr : Z) : Z := ptr - nissa_vect_sizeof.

  (* vectors.cpp: 143-192, internal_nissa_malloc; [junk] is the content of the
     memory returned by malloc *)
  Definition internal_nissa_malloc (nel size_per_el : Z) (ans : option Z) (junk : list Z)
             (s0 : vstate) : res (Z * vstate) :=
    let s := initialize_main_vect s0 in
    let size := nel * size_per_el in
    match ans with
    | None => Crash
    | Some nv =>
        let mem1 := mupd (vs_mem s) nv (Some (mkV nel size_per_el (vs_last s) 0 0 junk)) in
        let! l := deref mem1 (vs_last s) in
        let mem2 := mupd mem1 (vs_last s) (Some (with_next l nv)) in
        let ptr := nv + nissa_vect_sizeof in
        if negb (ptr mod NISSA_VECT_ALIGNMENT =? 0) then Crash
        else
          let req := vs_required s + size in
          Ok (ptr, mkVs mem2 nv req (Z.max (vs_max s) req) (vs_inited s))
    end.

  (* vectors.cpp: 246-280, internal_nissa_free ([ptr] is the pointer at arr; the caller's pointer is
     then set to null).  Only the address of the pointer is checked against null. *)
  Definition internal_nissa_free (ptr : Z) (s : vstate) : res vstate :=
    let a := get_vect ptr in
    let! vect := deref (vs_mem s) a in
    let prev := v_prev vect in
    let next := v_next vect in
    let! pv := deref (vs_mem s) prev in
    let mem1 := mupd (vs_mem s) prev (Some (with_next pv next)) in
    let! (mem2, last2) :=
      (if negb (next =? 0) then
         let! nx := deref mem1 next in
         Ok (mupd mem1 next (Some (with_prev nx prev)), vs_last s)
       else Ok (mem1, prev)) in
    Ok (mkVs (mupd mem2 a None) last2
             (vs_required s - v_size vect * v_nel vect) (vs_max s) (vs_inited s)).

  (* vectors.cpp: 106-118, compute_vect_memory_usage: do/while along the list;
     [None] when the fuel ends before the list *)
  Fixpoint usage_loop (fuel : nat) (m : Z -> option nvect) (curr tot : Z) : res (option Z) :=
    match fuel with
    | O => Ok None
    | S f => let! v := deref m curr in
             let tot := tot + v_nel v * v_size v in
             if v_next v =? 0 then Ok (Some tot)
             else usage_loop f m (v_next v) tot
    end.
  Definition compute_vect_memory_usage (fuel : nat) (s : vstate) : res (option Z) :=
    usage_loop fuel (vs_mem s) main 0.

  (* vectors.cpp: 94-103, print_all_vect_content: what is printed, as the list of
     the headers visited *)
  Fixpoint print_loop (fuel : nat) (m : Z -> option nvect) (curr : Z) (acc : list Z) : res (option (list Z)) :=
    match fuel with
    | O => Ok None
    | S f => let! v := deref m curr in
             let acc := acc ++ [curr] in
             if v_next v =? 0 then Ok (Some acc)
             else print_loop f m (v_next v) acc
    end.
  Definition print_all_vect_content (fuel : nat) (s : vstate) : res (option (list Z)) :=
    print_loop fuel (vs_mem s) main [].

  (* vectors.cpp: 195-232, vector_copy; the loop over the elements copies all the
     bytes of [b] *)
  Definition vector_copy (a b : Z) (s : vstate) : res vstate :=
    if a =? b then Ok s
    else
      let! va := deref (vs_mem s) (get_vect a) in
      let! vb := deref (vs_mem s) (get_vect b) in
      if negb (v_nel va =? v_nel vb) then Crash
      else if negb (v_size va =? v_size vb) then Crash
      else Ok (mkVs (mupd (vs_mem s) (get_vect a) (Some (with_content va (v_flag vb) (v_data vb))))
                    (vs_last s) (vs_required s) (vs_max s) (vs_inited s)).

  (* vectors.cpp: 235-243, vector_reset (the check of the tag is not modelled) *)
  Definition vector_reset (a : Z) (s : vstate) : res vstate :=
    let! va := deref (vs_mem s) (get_vect a) in
    Ok (mkVs (mupd (vs_mem s) (get_vect a)
                (Some (with_content va (v_flag va)
                         (repeat 0 (Z.to_nat (v_size va * v_nel va))))))
             (vs_last s) (vs_required s) (vs_max s) (vs_inited s)).

  (* vectors.cpp: 61-73, set_vect_flag *)
  Definition set_vect_flag (a flag : Z) (s : vstate) : res vstate :=
    let! va := deref (vs_mem s) (get_vect a) in
    if negb (Z.land (v_flag va) flag =? flag)
    then Ok (mkVs (mupd (vs_mem s) (get_vect a)
                     (Some (with_content va (Z.lor (v_flag va) flag) (v_data va))))
                  (vs_last s) (vs_required s) (vs_max s) (vs_inited s))
    else Ok s.

  (* vectors.cpp: 76-87, unset_vect_flag; ~x on 32 bits is 2^32-1 xor x *)
  Definition not32 (x : Z) : Z := Z.lxor x (2 ^ 32 - 1).
  Definition unset_vect_flag (a flag : Z) (s : vstate) : res vstate :=
    let! va := deref (vs_mem s) (get_vect a) in
    if negb (Z.land (not32 (v_flag va)) flag =? flag)
    then Ok (mkVs (mupd (vs_mem s) (get_vect a)
                     (Some (with_content va (Z.land (v_flag va) (not32 flag)) (v_data va))))
                  (vs_last s) (vs_required s) (vs_max s) (vs_inited s))
    else Ok s.

  (* vectors.cpp: 90-91, get_vect_flag *)
  Definition get_vect_flag (a flag : Z) (s : vstate) : res Z :=
    let! va := deref (vs_mem s) (get_vect a) in
    Ok (Z.land (v_flag va) flag).

  (* vectors.hpp: 99-118, internal_vector_duplicate *)
  Definition internal_vector_duplicate (v : Z) (ans : option Z) (junk : list Z)
             (s : vstate) : res (Z * vstate) :=
    let! h := deref (vs_mem s) (get_vect v) in
    let! (p, s1) := internal_nissa_malloc (v_nel h) (v_size h) ans junk s in
    let! s2 := vector_copy p v s1 in
    Ok (p, s2).

  Inductive vop :=
  | VMalloc (nel size : Z) (ans : option Z) (junk : list Z)
  | VFree (ptr : Z)
  | VCopy (a b : Z)
  | VReset (a : Z)
  | VSetFlag (a flag : Z)
  | VUnsetFlag (a flag : Z).

  Definition vexec (o : vop) (s : vstate) : res (Z * vstate) :=
    match o with
    | VMalloc nel size ans junk => internal_nissa_malloc nel size ans junk s
    | VFree p => let! s1 := internal_nissa_free p s in Ok (0, s1)
    | VCopy a b => let! s1 := vector_copy a b s in Ok (0, s1)
    | VReset a => let! s1 := vector_reset a s in Ok (0, s1)
    | VSetFlag a f => let! s1 := set_vect_flag a f s in Ok (0, s1)
    | VUnsetFlag a f => let! s1 := unset_vect_flag a f s in Ok (0, s1)
    end.
End Registry.
