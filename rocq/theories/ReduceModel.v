(** Model of the reductions: src/linalgs/reduce.hpp and Field::reduceNoPreserve, Field::reduce of
    src/base/field.hpp:863-920. *)
From Verif Require Import Base ParModel.
From Coq Require Import Permutation.

Section Reduce.
Context {V : Type}.

(** "op(buf[first],buf[second])" on all the components of the element, reduce.hpp:157-183 (the sum functor
    descends into arrays) and the UNROLL_FOR of field.hpp:884-886. [ix site deg] is the address of a component *)
Fixpoint combine_degs (op : V -> V -> V) (ix : Z -> Z -> Z) (first second : Z) (degs : list Z) : prog V :=
  match degs with
  | [] => Ret
  | d :: r => Ld (ix first d) (fun x => Ld (ix second d) (fun y =>
              St (ix first d) (op x y) (combine_degs op ix first second r)))
  end.

(** body of the loop over reductions, reduce.hpp:113-120 *)
Definition reduction_body (op : V -> V -> V) (ix : Z -> Z -> Z) (ndeg nslices stride nori_per_slice ireduction : Z) : prog V :=
  let islice := ireduction mod nslices in
  let ireduction_in_slice := ireduction / nslices in
  let first := ireduction_in_slice + nori_per_slice * islice in
  let second := first + stride in
  combine_degs op ix first second (seqZ ndeg).

(** the while loop, reduce.hpp:101-124; [bk k] is the way loops of k iterations are launched *)
Inductive reduce_loop (bk : Z -> backend) (op : V -> V -> V) (ix : Z -> Z -> Z) (ndeg nslices nori : Z)
  : Z -> mem V -> mem V -> Prop :=
| rl_end nper m m' : nper <= 1 -> (forall a, m' a = m a) -> reduce_loop bk op ix ndeg nslices nori nper m m'
| rl_round nper m m1 m2 : 1 < nper ->
    let stride := (nper + 1) / 2 in
    let nreductions := nper / 2 * nslices in
    PAR (bk nreductions) 0 nreductions (reduction_body op ix ndeg nslices stride nori) m m1 ->
    reduce_loop bk op ix ndeg nslices nori stride m1 m2 ->
    reduce_loop bk op ix ndeg nslices nori nper m m2.

(** locReduce, reduce.hpp:82-150. Undefined: division by no slices, or result read from an empty buffer *)
Inductive outcome := Crashed | UndefinedB | Result (res : Z -> Z -> V).
Inductive locReduce (bk : Z -> backend) (op : V -> V -> V) (ix : Z -> Z -> Z) (ndeg n nslices : Z) (m : mem V)
  : outcome -> Prop :=
| lr_zero : nslices = 0 -> locReduce bk op ix ndeg n nslices m UndefinedB
| lr_crash : nslices <> 0 -> Z.rem n nslices <> 0 -> locReduce bk op ix ndeg n nslices m Crashed
| lr_empty : nslices <> 0 -> Z.rem n nslices = 0 -> n <= 0 -> locReduce bk op ix ndeg n nslices m UndefinedB
| lr_ok m' : nslices <> 0 -> Z.rem n nslices = 0 -> 0 < n ->
    reduce_loop bk op ix ndeg nslices (Z.quot n nslices) (Z.quot n nslices) m m' ->
    locReduce bk op ix ndeg n nslices m
      (Result (fun islice idof => m' (ix (islice * Z.quot n nslices) idof))).

(** MPI_Allreduce: MPI combines the contributions in an unspecified order and bracketing *)
Inductive red_of (op : V -> V -> V) : list V -> V -> Prop :=
| red_one x : red_of op [x] x
| red_two l1 l2 l a b : red_of op l1 a -> red_of op l2 b -> Permutation l (l1 ++ l2) -> red_of op l (op a b).

(** the array loc_res of glb_reduce, reduce.hpp:199-207: zeroed, then filled from loc_offset on *)
Definition loc_res (zero : V) (nloc_slices loc_offset : Z) (res : Z -> Z -> V) : Z -> Z -> V :=
  fun islice idof => if (loc_offset <=? islice) && (islice <? loc_offset + nloc_slices)
                     then res (islice - loc_offset) idof else zero.

(** what one rank passes to glb_reduce, reduce.hpp:189-212 *)
Record contribution := { buf : mem V; nloc : Z; nloc_slices : Z; loc_offset : Z }.

(** glb_reduce (op the sum) and glbReduce (any op), reduce.hpp:189-236, on all the ranks: each reduces its buffer,
    then MPI_Allreduce of nslices results with MPI operation mop, which is always the sum: non_loc_reduce is
    called with its default argument *)
Definition glb_reduce (bk : Z -> backend) (op mop : V -> V -> V) (zero : V) (ix : Z -> Z -> Z) (ndeg nslices : Z)
  (ranks : list contribution) (glb_res : Z -> Z -> V) : Prop :=
  exists ress : list (Z -> Z -> V),
    Forall2 (fun c res => locReduce bk op ix ndeg (nloc c) (nloc_slices c) (buf c) (Result res)) ranks ress /\
    forall islice idof, 0 <= islice < nslices -> 0 <= idof < ndeg ->
      red_of mop (map (fun cr => loc_res zero (nloc_slices (fst cr)) (loc_offset (fst cr)) (snd cr) islice idof)
                     (List.combine ranks ress)) (glb_res islice idof).

(** Field::reduceNoPreserve, field.hpp:863-905 (the loop is the one of locReduce with one slice, then
    MPI_Allreduce in place); Field::reduce 908-918 works on a copy *)
Definition field_reduce (bk : Z -> backend) (op : V -> V -> V) (ix : Z -> Z -> Z) (ndeg nSites : Z)
  (ranks : list (mem V)) (out : Z -> V) : Prop :=
  exists ms : list (mem V),
    Forall2 (fun m m' => reduce_loop bk op ix ndeg 1 nSites nSites m m') ranks ms /\
    forall idof, 0 <= idof < ndeg -> red_of op (map (fun m' => m' (ix 0 idof)) ms) (out idof).
End Reduce.

(** GlbReduceMaxFunctor, reduce.hpp:171-183 *)
Definition maxOp (res acc : Z) : Z := if res <? acc then acc else res.
