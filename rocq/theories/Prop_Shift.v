(** Property theorem C55: shift of a field by one site.  Each theorem is closed by [exact]. *)
From Coq Require Import Permutation.
From Verif Require Import Base GeometryModel GeometrySpec HaloModel Prop_Geometry Prop_Halo ShiftModel ShiftProofs ShiftMain.
Open Scope Z_scope.

(** C55: after the shift with sign positive, the site of global coordinates x holds the value that was at x - mu, with sign not
    positive that at x + mu (periodically), whoever owns it; the call always ends.  [order] is the order in which the parallel
    loop visits the lines, [sched] those of the halo exchange: any. *)
Theorem C55_single_shift :
  forall (A : Type) g, valid_grid g = true ->
  forall (sched : Z -> list Z) (order : list Z) (mu : nat) (sign : Z) (data : Z -> table A),
  (forall q, 0 <= q < nranks g -> forall i, In i (sched q) <-> 0 <= i < locVol g) ->
  Permutation order (seqZ (perp_vol g mu)) -> (mu < 4)%nat ->
  forall r, 0 <= r < nranks g ->
  exists u', su3_vec_single_shift g sched order mu sign data r = Some u' /\
  forall x i1 r' i', in_box x (glbSize g) -> getLoclxAndRankOfCoords g x = (r, i1) ->
    getLoclxAndRankOfCoords g (periodic_shift (glbSize g) x mu (if 0 <? sign then -1 else 1)) = (r', i') ->
    u' i1 = data r' i'.
Proof. exact (fun A g Hv => @shift_main A g Hv). Qed.
Print Assumptions C55_single_shift.

(** same for the shift of a quad_su3 field, which takes 1 or 0 as sign *)
Theorem C55_quad_shift :
  forall (A : Type) g, valid_grid g = true ->
  forall (sched : Z -> list Z) (order : list Z) (mu : nat) (sign : Z) (data : Z -> table A),
  (forall q, 0 <= q < nranks g -> forall i, In i (sched q) <-> 0 <= i < locVol g) ->
  Permutation order (seqZ (locVol g)) -> (mu < 4)%nat -> sign = 0 \/ sign = 1 ->
  forall r, 0 <= r < nranks g ->
  exists u', quad_su3_vec_single_shift g sched order mu sign data r = Some u' /\
  forall x i1 r' i', in_box x (glbSize g) -> getLoclxAndRankOfCoords g x = (r, i1) ->
    getLoclxAndRankOfCoords g (periodic_shift (glbSize g) x mu (if sign =? 1 then -1 else 1)) = (r', i') ->
    u' i1 = data r' i'.
Proof. exact (fun A g Hv => @quad_shift_main A g Hv). Qed.
Print Assumptions C55_quad_shift.

(** the value -1, accepted by su3_vec_single_shift, makes quad_su3_vec_single_shift read outside of the two neighbour tables *)
Theorem C55_quad_sign_refuted :
  forall (A : Type) g sched order mu (data : Z -> table A) r, quad_su3_vec_single_shift g sched order mu (-1) data r = None.
Proof. exact quad_sign_refuted. Qed.
Print Assumptions C55_quad_sign_refuted.

(** rank 5 of the 8x4x6x4 lattice over 2x2x3x1 ranks, every site holding its rank and number *)
Example C55_ex :
  perp_vol ex_grid 2 = 32 /\ nranks ex_grid = 12 /\
  option_map (fun d => map d [0; 5; 17; 63]) (su3_vec_single_shift ex_grid (fun _ => seqZ (locVol ex_grid)) (seqZ (perp_vol ex_grid 2)) 2 1 ex_data 5)
  = Some [Some (4, 4); Some (5, 1); Some (4, 21); Some (5, 59)] /\
  option_map (fun d => map d [0; 5; 17; 63]) (su3_vec_single_shift ex_grid (fun _ => seqZ (locVol ex_grid)) (rev (seqZ (perp_vol ex_grid 3))) 3 (-1) ex_data 5)
  = Some [Some (5, 1); Some (5, 6); Some (5, 18); Some (5, 60)].
Proof. vm_compute. auto. Qed.
