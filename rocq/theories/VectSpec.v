(* The registry of the vectors as the user sees it. *)
From Coq Require Import List Bool ZArith Lia.
From Verif Require Import MemModel VectModel.
Import ListNotations.
Open Scope Z_scope.

(* what is known of a vector: number and size of elements, flags and content *)
Record vinfo := mkI { i_nel : Z; i_size : Z; i_flag : Z; i_data : list Z }.

(* the live vectors in order of allocation, by the address given to the user *)
Definition live := list (Z * vinfo).

Definition lookup (l : live) (p : Z) : option vinfo :=
  match find (fun e => fst e =? p) l with Some (_, i) => Some i | None => None end.
Definition drop (p : Z) (l : live) : live := filter (fun e => negb (fst e =? p)) l.
Definition change (p : Z) (f : vinfo -> vinfo) (l : live) : live :=
  map (fun e => if fst e =? p then (fst e, f (snd e)) else e) l.
Definition bytes (l : live) : Z := fold_right (fun e s => i_nel (snd e) * i_size (snd e) + s) 0 l.

Definition live_step (l : live) (o : vop) (returned : Z) : live :=
  match o with
  | VMalloc nel size _ junk => l ++ [(returned, mkI nel size 0 junk)]
  | VFree p => drop p l
  | VCopy a b => match lookup l b with
                 | Some i => change a (fun j => mkI (i_nel j) (i_size j) (i_flag i) (i_data i)) l
                 | None => l
                 end
  | VReset a => change a (fun j => mkI (i_nel j) (i_size j) (i_flag j)
                                       (repeat 0 (Z.to_nat (i_size j * i_nel j)))) l
  | VSetFlag a f => change a (fun j => mkI (i_nel j) (i_size j) (Z.lor (i_flag j) f) (i_data j)) l
  | VUnsetFlag a f => change a (fun j => mkI (i_nel j) (i_size j) (Z.ldiff (i_flag j) f) (i_data j)) l
  end.

Definition known (l : live) (p : Z) : Prop := In p (map fst l).

(* calls which make sense: sizes not negative, only live vectors used, malloc
   answers an address where there is no live vector; flags have 32 bits *)
Definition sensible_vop (main : Z) (l : live) (o : vop) : Prop :=
  match o with
  | VMalloc nel size ans junk =>
      0 <= nel /\ 0 <= size /\
      (match ans with
       | Some a => a <> 0 /\ a <> main /\ ~ known l (a + nissa_vect_sizeof)
       | None => True end)
  | VFree p => known l p
  | VCopy a b => known l a /\ known l b
  | VReset a => known l a
  | VSetFlag a f => known l a /\ 0 <= f < 2 ^ 32
  | VUnsetFlag a f => known l a /\ 0 <= f < 2 ^ 32
  end.

(* [vhist os l peak s]: after the calls [os] the live vectors are [l], the memory
   required has reached [peak] at most, the registry is in the state [s] *)
Inductive vhist (main : Z) : list vop -> live -> Z -> vstate -> Prop :=
| vhist_nil : vhist main [] [] 0 (initialize_main_vect main (vs_start main))
| vhist_cons : forall os l peak s o p s',
    vhist main os l peak s ->
    sensible_vop main l o ->
    vexec main o s = Ok (p, s') ->
    vhist main (os ++ [o]) (live_step l o p) (Z.max peak (bytes (live_step l o p))) s'.
