(** Property theorems: products of links along paths chosen by the user. *)
From Coq Require Import Permutation Sorted.
From Verif Require Import Base GeometryModel GeometrySpec GeometryProofs OwnerProofs GeoMiscModel HaloModel HaloProofs EdgeProofs EoModel EoProofs EoProofs2 Eo_final Ran2Main ArbModel ArbSpec ArbRec ArbComm ArbInd ArbMain ArbFinal.

(** the coordinates of the local sites of a rank *)
Definition site_of (g : grid) (r i : Z) : list Z := match glbCoordOfLoclx (rank_labels g r) i with Some x => x | None => [] end.
(** every rank holds the links of its sites *)
Definition holds_lx {T} (g : grid) (U : list Z -> nat -> T) (conf : Z -> Z -> nat -> option T) : Prop :=
  forall q i mu, 0 <= q < nranks g -> 0 <= i < locVol g -> (mu < 4)%nat -> conf q i mu = Some (U (site_of g q i) mu).
(** the same, divided by parity *)
Definition holds_eo {T} (g : grid) (U : list Z -> nat -> T) (conf : Z -> Z -> Z -> nat -> option T) : Prop :=
  forall q p k i mu, 0 <= q < nranks g -> p = 0 \/ p = 1 -> 0 <= k < locVolh g -> (mu < 4)%nat ->
    loclx_of_loceo (set_eo_geometry g (rank_labels g q)) p k = Some i -> conf q p k mu = Some (U (site_of g q i) mu).
(** qsort of each rank: any stable or unstable order by key *)
Definition sorts (sort : Z -> list movement_link_id -> list movement_link_id) : Prop :=
  forall r l, Permutation (sort r l) l /\ StronglySorted (fun a b => ord a <= ord b) (sort r l).
(** sizes for which the indices fit the integers of the code *)
Definition sizes_fit (g : grid) : Prop := 4 * prodZ (glbSize g) <= 2 ^ 31 /\ 64 * locVol g <= 2 ^ 31.
(** each rank declares its paths: how many, of how many steps in total, one after the other *)
Definition n_paths (P : Z -> list (list piece)) (r : Z) : Z := Z.of_nat (length (P r)).
Definition n_moves (P : Z -> list (list piece)) (r : Z) : Z := n_steps (P r).
Definition commands (P : Z -> list (list piece)) (r : Z) : list cmd := flat_map path_cmds (P r).
Definition declarable (g : grid) (P : Z -> list (list piece)) : Prop :=
  forall r, 0 <= r < nranks g -> Forall (path_ok g) (P r) /\ 16 * n_steps (P r) + 16 <= 2 ^ 31.

Lemma site_of_ok g : valid_grid g = true -> forall r i, 0 <= r < nranks g -> 0 <= i < locVol g -> in_box (site_of g r i) (glbSize g) /\ getLoclxAndRankOfCoords g (site_of g r i) = (r, i).
Proof.
  intros Hv r i Hr Hi. destruct (site_labels g r i Hv Hr Hi) as (x & Hx & Ex & L1 & _). unfold site_of, rank_labels. rewrite L1. auto.
Qed.

(** C25: after any declaration, each path is the sum over its pieces of the ordered product of the links, those walked backward being daggered *)
Theorem C25_paths :
  forall (T : Type) (zero one : T) (mul muldag add : T -> T -> T) g sort, valid_grid g = true -> sizes_fit g -> sorts sort ->
  forall P, declarable g P -> forall U conf before, holds_lx g U conf ->
  forall r, 0 <= r < nranks g -> P r <> [] ->
  exists res, compute_paths g sort zero one mul muldag add (n_paths P) (n_moves P) (commands P) (fetch_lx conf) before r = Some res /\
    (forall i p, nth_error (P r) i = Some p -> res (Z.of_nat i) = Some (path_value zero one mul muldag add (glbSize g) U (site_of g r) p)) /\
    (forall i, i < 0 \/ Z.of_nat (length (P r)) <= i -> res i = before r i).
Proof.
  intros T zero one mul muldag add g sort Hv [Hg Hl] Hs P HP U conf before Hc r Hr Hne.
  apply (paths_ok g Hv Hg Hl sort Hs (site_of g) (site_of_ok g Hv) P HP); [|assumption|assumption].
  intros q i mu Hq Hi Hmu. unfold fetch_lx. rewrite Z.quot_div_nonneg, Z.rem_mod_nonneg by lia.
  rewrite (Z.mul_comm 4), Z.div_add_l, Z.div_small, Z.add_0_r by lia. rewrite (Z.add_comm (i * 4)), Z.mod_add, Z.mod_small, Nat2Z.id by lia. now apply Hc.
Qed.
Print Assumptions C25_paths.

(** C25: the same with the configuration divided in even and odd sites *)
Theorem C25_paths_eo :
  forall (T : Type) (zero one : T) (mul muldag add : T -> T -> T) g sort, valid_grid g = true -> eo_grid_ok g = true -> sizes_fit g -> sorts sort ->
  forall P, declarable g P -> forall U conf before, holds_eo g U conf ->
  forall r, 0 <= r < nranks g -> P r <> [] ->
  exists res, compute_paths g sort zero one mul muldag add (n_paths P) (n_moves P) (commands P) (fetch_eo g conf) before r = Some res /\
    (forall i p, nth_error (P r) i = Some p -> res (Z.of_nat i) = Some (path_value zero one mul muldag add (glbSize g) U (site_of g r) p)) /\
    (forall i, i < 0 \/ Z.of_nat (length (P r)) <= i -> res i = before r i).
Proof.
  intros T zero one mul muldag add g sort Hv Heo [Hg Hl] Hs P HP U conf before Hc r Hr Hne.
  apply (paths_ok g Hv Hg Hl sort Hs (site_of g) (site_of_ok g Hv) P HP); [|assumption|assumption].
  intros q i mu Hq Hi Hmu. unfold fetch_eo. rewrite Z.quot_div_nonneg, Z.rem_mod_nonneg by lia.
  rewrite (Z.mul_comm 4), Z.div_add_l, Z.div_small, Z.add_0_r by lia. rewrite (Z.add_comm (i * 4)), Z.mod_add, Z.mod_small, Nat2Z.id by lia.
  assert (Hrc : in_box (coordOfRank g q) (nRanksDir g)) by (unfold coordOfRank; apply coordOfLx_in_box; [now apply nRanks_pos|now rewrite <- nranks_prod]).
  destruct (eo_bijection_main g (coordOfRank g q) Hv Heo Hrc) as [B _]. pose proof (vols_nonneg g Hv) as (V0 & V1 & V2).
  destruct (B i) as (gc & p & k & _ & Ep & E1 & E2 & E3 & E4 & E5 & _); [clear - Hi V1 V2; lia|].
  unfold rank_labels. rewrite E1, E2. apply Hc; auto.
  - subst p. pose proof (Z.mod_pos_bound (sumZ gc) 2 ltac:(lia)). lia.
  - split; [assumption|]. apply E4, Hi.
Qed.
Print Assumptions C25_paths_eo.

Lemma mvs_links g l : forall st su x, map (fun m => (m_x m, m_mu m)) (mvs g st su x l) = links_of (glbSize g) x l.
Proof. induction l as [|[mu b] l IH]; intros st su x; [reflexivity|]. cbn [mvs map links_of m_x m_mu fst snd]. unfold landed. cbn [fst snd]. destruct b; now rewrite IH. Qed.
Lemma path_mvs_links g site p : map (fun m => (m_x m, m_mu m)) (path_mvs g site p) = links_of_path (glbSize g) site p.
Proof.
  destruct p as [|q l]; [reflexivity|]. unfold links_of_path. cbn [path_mvs flat_map]. rewrite map_app. unfold piece_mvs at 1. rewrite mvs_links. f_equal.
  induction l as [|q' l IH]; [reflexivity|]. cbn [flat_map]. rewrite map_app, IH. unfold piece_mvs at 1. now rewrite mvs_links.
Qed.
Lemma all_mvs_links g site ps : map (fun m => (m_x m, m_mu m)) (all_mvs g site ps) = flat_map (links_of_path (glbSize g) site) ps.
Proof. unfold all_mvs. induction ps as [|p ps IH]; [reflexivity|]. cbn [flat_map]. now rewrite map_app, IH, path_mvs_links. Qed.

(** C25: each link which is not on the rank is asked once, whatever the number of paths going through it, and nothing else is asked;
    the rank receives as many links as it asks *)
Theorem C25_links_once :
  forall g sort, valid_grid g = true -> sizes_fit g -> sorts sort -> forall P, declarable g P ->
  forall r, 0 <= r < nranks g ->
  let asked := ind_list g sort (n_paths P) (n_moves P) (commands P) in
  NoDup (asked r) /\
  (forall t, In t (asked r) <-> exists x mu, In (x, mu) (flat_map (links_of_path (glbSize g) (site_of g r)) (P r)) /\
     fst (getLoclxAndRankOfCoords g x) <> r /\ t = 4 * glblxOfCoord g x + Z.of_nat mu) /\
  exists c, setup_sender_receivers g asked r = Some c /\ sumZ (nlinks_to_recv c) = Z.of_nat (length (asked r)).
Proof.
  intros g sort Hv [Hg Hl] Hs P HP r Hr asked.
  split; [|split].
  - apply (ssorted_map (fun t => key g r (mT g t))). apply (ind_list_sorted g Hv Hg Hl sort Hs (site_of g) (site_of_ok g Hv) P HP r Hr).
  - intros t. unfold asked. rewrite (ind_list_in g Hv Hg Hl sort Hs (site_of g) (site_of_ok g Hv) P HP r t Hr). split.
    + intros (m & Hm & Hok & Hne & ->). exists (m_x m), (m_mu m). split; [|split; [exact Hne|unfold lid; ring]].
      rewrite <- all_mvs_links. apply in_map_iff. exists m. auto.
    + intros (x & mu & Hin & Hne & ->). rewrite <- all_mvs_links in Hin. apply in_map_iff in Hin as (m & E & Hm). injection E as <- <-.
      exists m. split; [exact Hm|]. pose proof (L_ok g Hv Hg (site_of g) (site_of_ok g Hv) P HP r Hr) as HL. rewrite Forall_forall in HL.
      split; [now apply HL|]. split; [exact Hne|unfold lid; ring].
  - destruct (gathered g Hv Hg Hl sort Hs (site_of g) (site_of_ok g Hv) P HP (fun _ _ => @None Z) r Hr) as (_ & _ & _ & H). exact H.
Qed.
Print Assumptions C25_links_once.

(** C25: no cell is written before the buffer of the movements, nor after the cell which follows its end *)
Theorem C25_recording_cells :
  forall g sort, valid_grid g = true -> sizes_fit g -> sorts sort -> forall P, declarable g P ->
  forall r, 0 <= r < nranks g ->
  exists s l, finished g sort (n_paths P) (n_moves P) (commands P) r = Some (s, l) /\
    forall i, i < 0 \/ n_steps (P r) < i -> link_for_movements s i = None.
Proof.
  intros g sort Hv [Hg Hl] Hs P HP r Hr. destruct (finished_ok g Hv Hg Hl sort Hs (site_of g) (site_of_ok g Hv) P HP r Hr) as (s & E & _ & _ & _ & H & _).
  eexists s, _. split; [exact E|]. exact H.
Qed.
Print Assumptions C25_recording_cells.

(** ** examples *)
(** a sorting routine *)
Fixpoint put_in (e : movement_link_id) (l : list movement_link_id) : list movement_link_id :=
  match l with [] => [e] | a :: l' => if ord e <=? ord a then e :: l else a :: put_in e l' end.
Definition isort (l : list movement_link_id) : list movement_link_id := fold_right put_in [] l.
Lemma put_in_perm e l : Permutation (put_in e l) (e :: l).
Proof. induction l as [|a l IH]; cbn; [reflexivity|]. destruct (ord e <=? ord a); [reflexivity|]. rewrite IH. apply perm_swap. Qed.
Lemma isort_sorts : sorts (fun _ => isort).
Proof.
  intros _ l. split.
  - induction l as [|a l IH]; [reflexivity|]. change (isort (a :: l)) with (put_in a (isort l)). now rewrite put_in_perm, IH.
  - induction l as [|a l IH]; [constructor|]. change (isort (a :: l)) with (put_in a (isort l)). revert IH. generalize (isort l). clear l. intros l.
    induction 1 as [|b l Hs IH Hf]; cbn [put_in]; [constructor; constructor|]. destruct (Z.leb_spec (ord a) (ord b)) as [H|H].
    + constructor; [constructor; assumption|]. constructor; [assumption|]. eapply Forall_impl; [|exact Hf]. cbn beta. intros. lia.
    + constructor; [assumption|]. rewrite Forall_forall in *. intros x Hx. apply (Permutation_in _ (put_in_perm a l)) in Hx as [<-|Hx]; [lia|auto].
Qed.
(** formal sums of formal products of links: nothing is lost *)
Definition word : Type := list (list Z * nat * bool).
Definition w_mul (a l : list word) : list word := flat_map (fun u => map (fun v => u ++ v) l) a.
Definition w_dag (l : list word) : list word := map (fun u => rev (map (fun m => (fst m, negb (snd m))) u)) l.
Definition w_muldag (a l : list word) : list word := w_mul a (w_dag l).
Definition w_link (x : list Z) (mu : nat) : list word := [[(x, mu, false)]].
Definition ex_grid : grid := mkGrid [4;4;2;2] [2;2;1;1].
Definition ex_conf (q i : Z) (mu : nat) : option (list word) := Some (w_link (site_of ex_grid q i) mu).
(** every rank asks the two plaquettes around its last site in two planes, as one path, and a line which winds around the lattice backward *)
Definition plaq (i : Z) (mu nu : nat) : piece := mkPiece i [(mu, true); (nu, true); (mu, false); (nu, false)].
Definition ex_paths (r : Z) : list (list piece) := [[plaq 15 0 1; plaq 15 1 2]; [mkPiece 0 (repeat (1%nat, false) 4)]].
Lemma ex_declarable : declarable ex_grid ex_paths.
Proof.
  intros r _. split; [|vm_compute; discriminate]. unfold ex_paths, path_ok, piece_ok, plaq. change (locVol ex_grid) with 16. cbn [from steps repeat].
  repeat (constructor; [split; [discriminate|]|]); repeat constructor; cbn [fst]; try lia; discriminate.
Qed.
Example C25_ex : exists res, compute_paths ex_grid (fun _ => isort) [] [[]] w_mul w_muldag (@app word) (n_paths ex_paths) (n_moves ex_paths) (commands ex_paths)
    (fetch_lx ex_conf) (fun _ => tempty) 3 = Some res /\
  res 0 = Some [[([3;3;1;1], 0%nat, false); ([0;3;1;1], 1%nat, false); ([3;0;1;1], 0%nat, true); ([3;3;1;1], 1%nat, true)];
                [([3;3;1;1], 1%nat, false); ([3;0;1;1], 2%nat, false); ([3;3;0;1], 1%nat, true); ([3;3;1;1], 2%nat, true)]] /\
  res 1 = Some [[([2;1;0;0], 1%nat, true); ([2;0;0;0], 1%nat, true); ([2;3;0;0], 1%nat, true); ([2;2;0;0], 1%nat, true)]].
Proof.
  destruct (C25_paths (list word) [] [[]] w_mul w_muldag (@app word) ex_grid (fun _ => isort) eq_refl ltac:(split; vm_compute; discriminate) isort_sorts ex_paths ex_declarable
    w_link ex_conf (fun _ => tempty) ltac:(intros q i mu _ _ _; reflexivity) 3 ltac:(vm_compute; split; [discriminate|reflexivity]) ltac:(discriminate)) as (res & E & H & _).
  exists res. split; [exact E|]. split.
  - change 0 with (Z.of_nat 0) at 1. rewrite (H 0%nat _ eq_refl). vm_compute. reflexivity.
  - change 1 with (Z.of_nat 1) at 1. rewrite (H 1%nat _ eq_refl). vm_compute. reflexivity.
Qed.
(** the links of other ranks met by rank 3: six steps of its paths, five links, no one twice *)
Example C25_links_ex : NoDup (ind_list ex_grid (fun _ => isort) (n_paths ex_paths) (n_moves ex_paths) (commands ex_paths) 3) /\ In (4 * glblxOfCoord ex_grid [0;3;1;1] + 1) (ind_list ex_grid (fun _ => isort) (n_paths ex_paths) (n_moves ex_paths) (commands ex_paths) 3).
Proof.
  destruct (C25_links_once ex_grid (fun _ => isort) eq_refl ltac:(split; vm_compute; discriminate) isort_sorts ex_paths ex_declarable 3 ltac:(vm_compute; split; [discriminate|reflexivity])) as (H1 & H2 & _).
  split; [exact H1|]. refine (proj2 (H2 _) _). exists [0;3;1;1], 1%nat. split; [|split; [vm_compute; discriminate|reflexivity]]. vm_compute. auto.
Qed.

(** ** refutations *)
Definition small_grid : grid := mkGrid [2;2;2;2] [1;1;1;1].
(** "recording stays inside the allocated buffers": one path of one step, with room for one movement: the cell of index 1 is written *)
Theorem C25_buffer_overrun_refuted : exists s, record_paths small_grid 0 1 1 (path_cmds [mkPiece 0 [(0%nat, true)]]) = Some s /\ ntot_mov s = 1 /\ link_for_movements s 1 = Some 0.
Proof. vm_compute. eexists. split; [reflexivity|]. split; reflexivity. Qed.
Print Assumptions C25_buffer_overrun_refuted.
(** calling twice summ_to_previous_path: the second call passes the check of the flag but adds it again, the index of the link is moved by one and the flag is lost *)
Theorem C25_summ_twice_refuted : exists s, record_paths small_grid 0 2 3
    [StartNewPathFromLoclx 0; MoveForward 0; StopCurrentPath; StartNewPathFromLoclx 0; MoveForward 0; StopCurrentPath; StartNewPathFromLoclx 0; SummToPreviousPath; SummToPreviousPath; MoveForward 1; StopCurrentPath] = Some s /\ link_for_movements s 2 = Some (START_PATH_FLAG + 16 * (4 * 0 + 1 + 1)).
Proof. vm_compute. eexists. split; reflexivity. Qed.
Print Assumptions C25_summ_twice_refuted.
(** a path without steps is forgotten, and the end of the computation finds that a path is missing *)
Theorem C25_empty_path_refuted : forall (T : Type) (zero one : T) mul muldag add conf before,
  compute_paths small_grid (fun _ => isort) zero one mul muldag add (fun _ => 2) (fun _ => 1)
    (fun _ => [StartNewPathFromLoclx 0; StopCurrentPath; StartNewPathFromLoclx 0; MoveForward 0; StopCurrentPath]) conf before 0 = None.
Proof.
  intros. unfold compute_paths.
  set (F := finished _ _ _ _ _ _). vm_compute in F. subst F. cbn iota beta. destruct (gather_nonloc _ _ _ _) as [nl|]; [|reflexivity].
  unfold compute. cbn [npaths ntot_mov link_for_movements]. change (seqZ 1) with [0]. cbn [fold_left].
  unfold compute_step. cbn. destruct (conf 0 0) as [l|]; [|reflexivity]. unfold summassign. cbn. destruct (before 0 1); reflexivity.
Qed.
Print Assumptions C25_empty_path_refuted.
