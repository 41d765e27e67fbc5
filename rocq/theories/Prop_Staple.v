(** Property theorems: gauge sector, staples computed by all the ranks. *)
From Verif Require Import Base GeometryModel GeometrySpec GeoMiscModel HaloModel HaloProofs StapleModel StapleSpec StapleProofs StapleMain StapleFinal.

(** every rank holds the links of its sites; nothing is asked of the border *)
Definition holds {T} (g : grid) (U : list Z -> nat -> T) (conf : Z -> Z -> nat -> option T) : Prop :=
  forall q i x mu, 0 <= q < nranks g -> 0 <= i < locVol g -> glbCoordOfLoclx (rank_labels g q) i = Some x -> (mu < 4)%nat -> conf q i mu = Some (U x mu).
(** each parallel loop visits each of its iterations once, in any order *)
Definition any_order (ord : Z -> nat -> nat -> nat -> Z -> Z -> list Z) : Prop :=
  forall r l a b lo hi, NoDup (ord r l a b lo hi) /\ forall i, In i (ord r l a b lo hi) <-> lo <= i < hi.

Lemma perp_other mu : (mu < 4)%nat -> other_dirs mu = map (perpDirs mu) [0; 1; 2]%nat.
Proof. intros H. destruct mu as [|[|[|[|]]]]; [| | | |exfalso; clear -H; lia]; reflexivity. Qed.

(** C82: on every rank the six staples of each local link are those of the link of the periodic lattice *)
Theorem C82_staples :
  forall (T : Type) (mul muldag dagmul : T -> T -> T) g, valid_grid g = true ->
  forall surf_sched ord, (forall q, 0 <= q < nranks g -> forall i, In i (surf_sched q) <-> 0 <= i < locVol g) -> any_order ord ->
  forall U conf out sb, holds g U conf ->
  forall r, 0 <= r < nranks g ->
  exists c o, compute_squared_staples_lx_conf mul muldag dagmul g ord surf_sched conf out sb r = Some (c, o) /\
    (forall A x mu, 0 <= A < locVol g -> glbCoordOfLoclx (rank_labels g r) A = Some x -> (mu < 4)%nat ->
       map (o A mu) (seq 0 6) = map Some (staples_of mul muldag dagmul (glbSize g) U x mu)) /\
    (forall i mu, i < locVol g + bordVolh g \/ locVol g + bordVol g <= i -> c i mu = conf r i mu).
Proof.
  intros T mul muldag dagmul g Hv ss ord Hs Ho U conf out sb Hc r Hr.
  destruct (staples_main g Hv ss Hs mul muldag dagmul ord Ho U conf out sb) with (r := r) as (c & o & E & C1 & _ & G); [intros q i Hq Hi x nu Hx Hnu; now apply Hc|exact Hr|].
  exists c, o. split; [exact E|]. split; [|intros i mu Hi; apply C1; lia].
  intros A x mu HA Hx Hmu. unfold staples_of. rewrite (perp_other mu Hmu). cbn [map app seq].
  assert (V : forall k, (k < 6)%nat -> o A mu k = Some (val g mul muldag dagmul U x mu k)).
  { intros k Hk. destruct (G A mu k HA Hmu Hk) as (z & Hz & ->). unfold gc in Hz. rewrite Hx in Hz. injection Hz as <-. reflexivity. }
  rewrite !V by lia. reflexivity.
Qed.
Print Assumptions C82_staples.

Lemma put_at {T} (s : @qfield T) i mu v : link_put s i mu v i mu = v.
Proof. unfold link_put. now rewrite Z.eqb_refl, Nat.eqb_refl. Qed.
Lemma put_else {T} (s : @qfield T) i mu v j nu : j <> i \/ nu <> mu -> link_put s i mu v j nu = s j nu.
Proof. intros H. unfold link_put. destruct (Z.eqb_spec j i) as [->|]; [|reflexivity]. destruct (Nat.eqb_spec nu mu) as [->|]; [|reflexivity]. destruct H; congruence. Qed.
Lemma sum_site_keep {T} (add : T -> T -> T) (ss : @sfield T) i s j nu : j <> i -> sum_site add ss i s j nu = s j nu.
Proof.
  intros H. unfold sum_site. apply fold_keep with (P := fun t => t j nu = s j nu); [|reflexivity]. intros t mu _ Ht.
  apply fold_keep with (P := fun t => t j nu = s j nu); [|rewrite put_else by (left; exact H); exact Ht].
  intros t' k _ Ht'. rewrite put_else by (left; exact H). exact Ht'.
Qed.
Lemma inner_else {T} (add : T -> T -> T) (ss : @sfield T) i mu L s j nu : nu <> mu ->
  fold_left (fun (out : @qfield T) iterm => link_put out i mu (op2 add (out i mu) (ss i mu iterm))) L s j nu = s j nu.
Proof. intros N. apply fold_keep with (P := fun t => t j nu = s j nu); [|reflexivity]. intros t k _ Ht. rewrite put_else by (right; exact N). exact Ht. Qed.
Lemma inner_at {T} (add : T -> T -> T) (ss : @sfield T) i mu L l : map (ss i mu) L = map Some l -> forall s a, s i mu = Some a ->
  fold_left (fun (out : @qfield T) iterm => link_put out i mu (op2 add (out i mu) (ss i mu iterm))) L s i mu = Some (fold_left add l a).
Proof.
  revert l. induction L as [|k L IH]; intros [|b l] E s a Hs; try discriminate E; [exact Hs|]. cbn [map] in E. injection E as E1 E2. cbn [fold_left].
  apply IH; [exact E2|]. rewrite put_at, Hs, E1. reflexivity.
Qed.
Lemma sum_site_at {T} (add : T -> T -> T) (ss : @sfield T) i s nu l : (nu < 4)%nat -> map (ss i nu) (seq 0 6) = map Some l -> sum_site add ss i s i nu = sum_of add l.
Proof.
  intros H E. destruct l as [|a l]; [discriminate E|]. change (seq 0 6) with (0 :: [1; 2; 3; 4; 5])%nat in E. cbn [map] in E. injection E as E0 E.
  assert (W : forall t : @qfield T, fold_left (fun out iterm => link_put out i nu (op2 add (out i nu) (ss i nu iterm))) [1; 2; 3; 4; 5]%nat (link_put t i nu (ss i nu 0%nat)) i nu = sum_of add (a :: l)).
  { intros t. apply inner_at; [exact E|]. now rewrite put_at. }
  unfold sum_site. apply fold_gets with (P := fun s => s i nu = sum_of add (a :: l)) (b := nu).
  - intros t mu _ Ht. destruct (Nat.eq_dec nu mu) as [<-|N]; [apply W|]. rewrite inner_else by exact N. rewrite put_else by (right; exact N). exact Ht.
  - now apply in_dirs.
  - intros t. apply W.
Qed.

(** C82: and the sum is their sum *)
Theorem C82_summed :
  forall (T : Type) (mul muldag dagmul add : T -> T -> T) g, valid_grid g = true ->
  forall surf_sched ord, (forall q, 0 <= q < nranks g -> forall i, In i (surf_sched q) <-> 0 <= i < locVol g) -> any_order ord ->
  forall U conf ss sb out, holds g U conf ->
  forall r, 0 <= r < nranks g ->
  exists c o, compute_summed_squared_staples_lx_conf mul muldag dagmul add g ord surf_sched conf ss sb out r = Some (c, o) /\
    (forall A x mu, 0 <= A < locVol g -> glbCoordOfLoclx (rank_labels g r) A = Some x -> (mu < 4)%nat ->
       o A mu = sum_of add (staples_of mul muldag dagmul (glbSize g) U x mu)) /\
    (forall i mu, ~ (0 <= i < locVol g) -> o i mu = out r i mu) /\
    (forall i mu, i < locVol g + bordVolh g \/ locVol g + bordVol g <= i -> c i mu = conf r i mu).
Proof.
  intros T mul muldag dagmul add g Hv su ord Hs Ho U conf ss sb out Hc r Hr.
  destruct (C82_staples T mul muldag dagmul g Hv su ord Hs Ho U conf ss sb Hc r Hr) as (c & o & E & G & C1).
  unfold compute_summed_squared_staples_lx_conf. rewrite E. eexists c, _. split; [reflexivity|]. split; [|split; [|exact C1]].
  - intros A x mu HA Hx Hmu.
    apply (PAR_gets ord Ho) with (P := fun s => s A mu = sum_of add (staples_of mul muldag dagmul (glbSize g) U x mu)) (i := A); [|exact HA|].
    + intros i s _ Hi. destruct (Z.eq_dec A i) as [<-|N]; [apply sum_site_at; [exact Hmu|now apply G]|rewrite sum_site_keep by exact N; exact Hi].
    + intros s. apply sum_site_at; [exact Hmu|now apply G].
  - intros i mu Hi. apply (PAR_keep ord Ho) with (P := fun s => s i mu = out r i mu); [|reflexivity]. intros j s Hj E'. rewrite sum_site_keep by (intros ->; lia). exact E'.
Qed.
Print Assumptions C82_summed.

(** a lattice of 4x4x2x2 sites on 2x2x1x1 ranks, with words of links in place of the matrices: a link is its site, its direction and
    whether it is taken backward.  Links of the border are absent before. *)
Definition st_grid : grid := mkGrid [4;4;2;2] [2;2;1;1].
Definition word := list (list Z * nat * bool).
Definition wdag (w : word) : word := map (fun '(x, mu, d) => (x, mu, negb d)) (rev w).
Definition wconf (q i : Z) (mu : nat) : option word :=
  if (0 <=? i) && (i <? locVol st_grid) then option_map (fun x => [(x, mu, false)]) (glbCoordOfLoclx (rank_labels st_grid q) i) else None.
Definition seq_order (r : Z) (l a b : nat) (lo hi : Z) : list Z := map (fun i => lo + i) (seqZ (hi - lo)).
Lemma seq_any : any_order seq_order.
Proof.
  intros r l a b lo hi. unfold seq_order. split.
  - apply FinFun.Injective_map_NoDup; [intros x y; lia|apply NoDup_seqZ].
  - intros i. rewrite in_map_iff. split.
    + intros (j & <- & Hj). apply in_seqZ in Hj. lia.
    + intros Hi. exists (i - lo). split; [lia|]. apply in_seqZ. lia.
Qed.
Lemma wconf_holds : holds st_grid (fun x mu => [(x, mu, false)]) wconf.
Proof. intros q i x mu _ Hi Hx _. unfold wconf. replace ((0 <=? i) && (i <? locVol st_grid)) with true by lia. now rewrite Hx. Qed.
Definition st_out := compute_squared_staples_lx_conf (@app _) (fun a b => a ++ wdag b) (fun a b => wdag a ++ b) st_grid seq_order
  (fun _ => seqZ (locVol st_grid)) wconf (fun _ _ _ _ => None) (fun _ _ _ => None) 3.
(** rank 3, first site, direction 2: the site has coordinates 2,2,0,0; the first two backward staples need links of other ranks *)
Example C82_ex : valid_grid st_grid = true /\ nranks st_grid = 4 /\ exists c o, st_out = Some (c, o) /\ map (o 0 2%nat) (seq 0 6) = map Some
  [ [([1;2;0;0], 0%nat, true); ([1;2;0;0], 2%nat, false); ([1;2;1;0], 0%nat, false)];
    [([2;1;0;0], 1%nat, true); ([2;1;0;0], 2%nat, false); ([2;1;1;0], 1%nat, false)];
    [([2;2;0;1], 3%nat, true); ([2;2;0;1], 2%nat, false); ([2;2;1;1], 3%nat, false)];
    [([2;2;0;0], 0%nat, false); ([3;2;0;0], 2%nat, false); ([2;2;1;0], 0%nat, true)];
    [([2;2;0;0], 1%nat, false); ([2;3;0;0], 2%nat, false); ([2;2;1;0], 1%nat, true)];
    [([2;2;0;0], 3%nat, false); ([2;2;0;1], 2%nat, false); ([2;2;1;0], 3%nat, true)] ].
Proof.
  split; [reflexivity|]. split; [reflexivity|].
  destruct (C82_staples word (@app _) (fun a b => a ++ wdag b) (fun a b => wdag a ++ b) st_grid eq_refl (fun _ => seqZ (locVol st_grid)) seq_order
    (fun q _ i => in_seqZ _ i) seq_any _ wconf (fun _ _ _ _ => None) (fun _ _ _ => None) wconf_holds 3 ltac:(vm_compute; split; [discriminate|reflexivity])) as (c & o & E & G & _).
  exists c, o. split; [exact E|].
  etransitivity; [apply (G 0 [2;2;0;0] 2%nat); [vm_compute; split; [discriminate|reflexivity]|vm_compute; reflexivity|lia]|]. vm_compute. reflexivity.
Qed.
