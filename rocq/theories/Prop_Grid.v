(** Property theorems C16-C17: choice of the process grid, factorisation. *)
From Verif Require Import Base GeometryModel GridModel GridSpec GridProofs GridMain.
From Coq Require Import Sorting.Sorted Znumtheory.

(** C16: with more than one rank and more than one site per rank, the grid returned divides the lattice,
    has the right number of ranks, respects fixed directions and evenness, and no admissible grid has a
    smaller surface; if there is none, the code aborts or returns -1 in all directions (never a wrong grid).
    ovf is the unknown value of the overflowing integer products of the tie-break. *)
Theorem C16_minimal_surface_grid : forall ovf L fixn use_eo NR,
  length L = 4%nat -> (forall mu, (mu < 4)%nat -> 0 < L.[mu]) ->
  length fixn = 4%nat -> (forall mu, (mu < 4)%nat -> 0 <= fixn.[mu]) ->
  prodZ L <= int_max -> 1 < NR < prodZ L ->
  match findMinimalSurfaceGrid ovf L fixn use_eo NR with
  | Undefined => False
  | Crash => forall R, ~ valid_split L fixn use_eo NR R
  | Grid R => (R = [-1;-1;-1;-1] /\ forall R', ~ valid_split L fixn use_eo NR R') \/
              (valid_split L fixn use_eo NR R /\
               forall R', valid_split L fixn use_eo NR R' -> surface L R <= surface L R')
  end.
Proof. exact grid_main. Qed.
Print Assumptions C16_minimal_surface_grid.
Example C16_ex : findMinimalSurfaceGrid (fun _ => 0) [48;24;24;24] [0;2;0;0] true 24 = Grid [3;2;2;2] /\
  surface [48;24;24;24] [3;2;2;2] = 13648 /\ surface [48;24;24;24] [6;2;1;2] = 14448.
Proof. vm_compute. auto. Qed.
(** an impossible request is not reported as such: the final check never fires *)
Example C16_ex_none : findMinimalSurfaceGrid (fun _ => 0) [6;4;4;4] [2;1;1;1] false 4 = Grid [-1;-1;-1;-1].
Proof. vm_compute. reflexivity. Qed.
(** with one rank, or one site per rank, the requests are ignored *)
Theorem C16_degenerate_refuted : forall ovf,
  (exists L fixn, findMinimalSurfaceGrid ovf L fixn true 1 = Grid [1;1;1;1] /\ ~ valid_split L fixn true 1 [1;1;1;1]) /\
  (exists L fixn, findMinimalSurfaceGrid ovf L fixn false (prodZ L) = Grid L /\ ~ valid_split L fixn false (prodZ L) L).
Proof.
  intros ovf. split.
  - exists [3;16;1;1], [0;0;0;0]. split; [vm_compute; reflexivity|].
    intros (_ & _ & _ & H & _). destruct (H eq_refl 0%nat ltac:(lia)) as [k Hk]. cbn [nth] in Hk. rewrite Z.div_1_r in Hk. lia.
  - exists [4;4;4;4], [2;0;0;0]. split; [vm_compute; reflexivity|].
    intros (_ & _ & _ & _ & H). specialize (H 0%nat ltac:(lia)). cbn in H. lia.
Qed.
Print Assumptions C16_degenerate_refuted.

(** C17: factorize returns the prime factors in non-decreasing order (the loop always terminates) *)
Theorem C17_factorize : forall N, 0 < N ->
  exists l, factorize N = Some l /\ Forall prime l /\ Sorted Z.le l /\ prodZ l = N.
Proof. intros N H. apply factorize_main. lia. Qed.
Print Assumptions C17_factorize.
Example C17_ex : factorize 5040 = Some [2;2;2;2;3;3;5;7]. Proof. vm_compute. reflexivity. Qed.
