(** Labelling of local, border and edge sites. *)
From Verif Require Import Base GeometryModel GeometrySpec GeometryProofs OwnerProofs.

(** *** consecutive intervals *)
Definition prefix (sizes : list Z) (k : nat) : Z := sumZ (firstn k sizes).

Lemma prefix_S sizes k : (k < length sizes)%nat -> prefix sizes (S k) = prefix sizes k + sizes.[k].
Proof.
  unfold prefix. revert k; induction sizes as [|n s IH]; intros [|k] H; cbn in H; try lia.
  - destruct s; cbn; lia.
  - specialize (IH k ltac:(lia)). cbn [nth]. change (firstn (S (S k)) (n :: s)) with (n :: firstn (S k) s).
    change (firstn (S k) (n :: s)) with (n :: firstn k s). unfold sumZ in *. cbn [fold_right]. lia.
Qed.

Lemma prefix_all sizes : prefix sizes (length sizes) = sumZ sizes.
Proof. unfold prefix. now rewrite firstn_all. Qed.

Lemma prefix_mono sizes : Forall (fun n => 0 <= n) sizes -> forall j k, (j <= k)%nat -> (k <= length sizes)%nat ->
  prefix sizes j <= prefix sizes k.
Proof.
  intros Hp j k Hjk Hk. induction Hjk as [|k Hjk IH]; [lia|].
  rewrite prefix_S by lia. specialize (IH ltac:(lia)).
  assert (0 <= sizes.[k]). { rewrite Forall_forall in Hp. apply Hp. apply nth_In. lia. }
  lia.
Qed.

Lemma prefix_unique sizes : Forall (fun n => 0 <= n) sizes -> forall j k r q,
  (j < length sizes)%nat -> (k < length sizes)%nat ->
  0 <= r < sizes.[j] -> 0 <= q < sizes.[k] -> prefix sizes j + r = prefix sizes k + q -> j = k /\ r = q.
Proof.
  intros Hp j k r q Hj Hk Hr Hq E.
  destruct (Nat.lt_trichotomy j k) as [H|[H|H]].
  - pose proof (prefix_mono sizes Hp (S j) k H ltac:(lia)). rewrite prefix_S in H0 by lia. lia.
  - subst. lia.
  - pose proof (prefix_mono sizes Hp (S k) j H ltac:(lia)). rewrite prefix_S in H0 by lia. lia.
Qed.

Lemma prefix_locate sizes : forall i, 0 <= i < sumZ sizes -> 
  exists k, (k < length sizes)%nat /\ 0 <= i - prefix sizes k < sizes.[k].
Proof.
  induction sizes as [|n s IH]; intros i Hi; [cbn in Hi; lia|].
  unfold sumZ in Hi. cbn [fold_right] in Hi. fold (sumZ s) in Hi.
  destruct (Z_lt_dec i n) as [H|H].
  - exists O. cbn. lia.
  - destruct (IH (i-n) ltac:(lia)) as (k & Hk & Hb). exists (S k). cbn [length nth]. split; [lia|].
    unfold prefix, sumZ in *. cbn [firstn fold_right]. lia.
Qed.

(** *** classes of extended sites *)
(** position of coordinate c with respect to the local side l: -1 just before, 1 just after, 0 inside *)
Definition flag1 (l c : Z) : Z := if c =? -1 then -1 else if c =? l then 1 else 0.

Definition classes : list (list Z) :=
  [ [0;0;0;0];
    [-1;0;0;0]; [0;-1;0;0]; [0;0;-1;0]; [0;0;0;-1];
    [1;0;0;0]; [0;1;0;0]; [0;0;1;0]; [0;0;0;1];
    [-1;-1;0;0]; [-1;0;-1;0]; [-1;0;0;-1]; [0;-1;-1;0]; [0;-1;0;-1]; [0;0;-1;-1];
    [-1;1;0;0]; [-1;0;1;0]; [-1;0;0;1]; [0;-1;1;0]; [0;-1;0;1]; [0;0;-1;1];
    [1;-1;0;0]; [1;0;-1;0]; [1;0;0;-1]; [0;1;-1;0]; [0;1;0;-1]; [0;0;1;-1];
    [1;1;0;0]; [1;0;1;0]; [1;0;0;1]; [0;1;1;0]; [0;1;0;1]; [0;0;1;1] ].

(** components of v in the directions where the class is inside *)
Fixpoint kept (f v : list Z) : list Z :=
  match f, v with
  | a :: f', b :: v' => if a =? 0 then b :: kept f' v' else kept f' v'
  | _, _ => []
  end.
(** product of 0/1 parallelisation of the other directions *)
Fixpoint parprod (f : list Z) (p : list Z) : Z :=
  match f, p with
  | a :: f', b :: p' => (if a =? 0 then 1 else b) * parprod f' p'
  | _, _ => 1
  end.

Lemma kept_Forall (P : Z -> Prop) f v : Forall P v -> Forall P (kept f v).
Proof.
  intros H. revert f. induction H as [|n s Hn Hs IH]; intros [|a f]; cbn; try constructor.
  destruct (a =? 0); [constructor|]; auto.
Qed.

Definition b01 (b : bool) : Z := if b then 1 else 0.
Definition pars (g : grid) : list Z := map (fun mu => b01 (isDirParallel g mu)) dirs.
Definition csize (g : grid) (f : list Z) : Z := parprod f (pars g) * prodZ (kept f (locSize g)).
Definition sizes (g : grid) : list Z := map (csize g) classes.

Definition flags (g : grid) (y : list Z) : list Z := map2 flag1 (locSize g) y.

Lemma quot_mul_r a b : b <> 0 -> Z.quot (a * b) b = a.
Proof. intros; now apply Z.quot_mul. Qed.

(** flag of a coordinate and the tests of the code *)
Lemma flag_props n l c : 0 < n -> 2 <= l -> 
  (if 1 <? n then -1 <= c <= l else 0 <= c < l) ->
  let x := c mod (n*l) in
  (if 1 <? n then if x =? l then 1 else if x =? n*l - 1 then -1 else 0 else 0) = flag1 l c /\
  ((0 <=? x) && (x <? l)) = (flag1 l c =? 0) /\
  (flag1 l c = 0 -> x = c /\ 0 <= c < l) /\ (flag1 l c <> 0 -> 1 < n).
Proof.
  intros Hn Hl Hc. cbn zeta. unfold flag1.
  destruct (Z.ltb_spec 1 n) as [H1|H1].
  - destruct (Z.eqb_spec c (-1)) as [->|Hm1].
    + assert (E : (-1) mod (n*l) = n*l-1).
      { symmetry. apply Z.mod_unique_pos with (q := -1); nia. }
      rewrite E. assert (2*l <= n*l) by nia.
      destruct (Z.eqb_spec (n*l-1) l); [nia|]. rewrite Z.eqb_refl. split; [reflexivity|].
      split; [|split; [discriminate|lia]]. cbn. lia.
    + rewrite Z.mod_small by nia. destruct (Z.eqb_spec c l) as [->|Hcl].
      * split; [reflexivity|]. split; [|split; [discriminate|lia]]. cbn. lia.
      * destruct (Z.eqb_spec c (n*l-1)); [nia|]. split; [reflexivity|].
        split; [cbn; lia|]. split; lia.
  - rewrite Z.mod_small by nia. destruct (Z.eqb_spec c (-1)); [lia|].
    destruct (Z.eqb_spec c l); [lia|]. cbn. split; [reflexivity|]. split; lia.
Qed.

Section G.
Context (g : grid) (Hv : valid_grid g = true).

Lemma bordDirVol_eq mu : (mu < 4)%nat ->
  bordDirVol g mu = b01 (isDirParallel g mu) * prodZ (map (fun nu => (locSize g).[nu]) (perpDirs mu)).
Proof.
  intros Hmu. unfold bordDirVol. rewrite (locVol_prod g Hv).
  destruct (valid_grid_inv g Hv) as (n0&n1&n2&n3&l0&l1&l2&l3&Hg&Hl&Hn&Hll). rewrite Hl.
  destruct (isDirParallel g mu); cbn [b01]; [|ring].
  destruct mu as [|[|[|[|]]]]; try lia; cbn [nth perpDirs map prodZ fold_right]; rewrite Z.mul_1_l.
  - replace (l0 * _) with (l1*(l2*(l3*1))*l0) by ring. apply Z.quot_mul; lia.
  - replace (l0 * _) with (l0*(l2*(l3*1))*l1) by ring. apply Z.quot_mul; lia.
  - replace (l0 * _) with (l0*(l1*(l3*1))*l2) by ring. apply Z.quot_mul; lia.
  - replace (l0 * _) with (l0*(l1*(l2*1))*l3) by ring. apply Z.quot_mul; lia.
Qed.

Lemma edge_dir_vol_eq ie : (ie < 6)%nat ->
  edge_dir_vol g ie = 
  b01 (isDirParallel g (fst (edge_dir ie))) * b01 (isDirParallel g (snd (edge_dir ie))) *
  prodZ (map (fun nu => (locSize g).[nu]) (nth ie [[2;3];[1;3];[1;2];[0;3];[0;2];[0;1]]%nat [])).
Proof.
  intros Hi.
  destruct (valid_grid_inv g Hv) as (n0&n1&n2&n3&l0&l1&l2&l3&Hg&Hl&Hn&Hll).
  destruct ie as [|[|[|[|[|[|]]]]]]; try lia; 
   unfold edge_dir_vol, edge_dir; cbn [edge_dirs dirs flat_map map filter Nat.ltb Nat.leb app nth fst snd];
   rewrite bordDirVol_eq by lia; rewrite Hl;
   repeat match goal with |- context [isDirParallel g ?m] => destruct (isDirParallel g m) end;
   cbn [b01 andb nth map perpDirs prodZ fold_right]; try reflexivity; rewrite ?Z.mul_1_l, ?Z.mul_1_r.
  - replace (l1 * _) with (l2*l3*l1) by ring. apply Z.quot_mul; lia.
  - replace (l1 * _) with (l1*l3*l2) by ring. apply Z.quot_mul; lia.
  - replace (l1 * _) with (l1*l2*l3) by ring. apply Z.quot_mul; lia.
  - replace (l0 * _) with (l0*l3*l2) by ring. apply Z.quot_mul; lia.
  - replace (l0 * _) with (l0*l2*l3) by ring. apply Z.quot_mul; lia.
  - replace (l0 * _) with (l0*l1*l3) by ring. apply Z.quot_mul; lia.
Qed.

Lemma sizes_nonneg : Forall (fun n => 0 <= n) (sizes g).
Proof.
  destruct (valid_grid_inv g Hv) as (n0&n1&n2&n3&l0&l1&l2&l3&Hg&Hl&Hn&Hll).
  unfold sizes. rewrite Forall_map. rewrite Forall_forall. intros f _. unfold csize.
  apply Z.mul_nonneg_nonneg.
  - unfold pars. revert f. induction dirs as [|m ds IH]; intros [|a f]; cbn; try lia.
    apply Z.mul_nonneg_nonneg; [|apply IH]. destruct (a =? 0); [lia|]. destruct (isDirParallel g m); cbn; lia.
  - apply Z.lt_le_incl, prodZ_pos. pose proof (locSize_pos g Hv) as Hp.
    now apply kept_Forall.
Qed.

(** the border and edge volumes are the sums over the classes *)
Lemma bordVolh_eq : bordVolh g = bordDirVol g 0 + bordDirVol g 1 + bordDirVol g 2 + bordDirVol g 3.
Proof. unfold bordVolh. cbn [fold_left dirs]. ring. Qed.

Lemma edgeVol_eq : edgeVol g = 4 * (edge_dir_vol g 0 + edge_dir_vol g 1 + edge_dir_vol g 2 +
  edge_dir_vol g 3 + edge_dir_vol g 4 + edge_dir_vol g 5).
Proof. unfold edgeVol. cbn [fold_left seq nEdges edge_dirs dirs flat_map map filter Nat.ltb Nat.leb app length]. ring. Qed.

Lemma csize_loc : csize g [0;0;0;0] = locVol g.
Proof.
  rewrite (locVol_prod g Hv).
  destruct (valid_grid_inv g Hv) as (n0&n1&n2&n3&l0&l1&l2&l3&Hg&Hl&Hn&Hll). unfold csize. rewrite Hl.
  unfold pars. cbn [map dirs parprod kept Z.eqb prodZ fold_right]. ring.
Qed.

Lemma sizes_explicit : sizes g =
  locVol g :: 
  (let b := map (bordDirVol g) [0;1;2;3]%nat in
   let e := map (edge_dir_vol g) [0;1;2;3;4;5]%nat in
   b ++ b ++ e ++ e ++ e ++ e).
Proof.
  cbn [map app]. rewrite !bordDirVol_eq by lia. rewrite !edge_dir_vol_eq by lia.
  unfold sizes, classes. cbn [map]. rewrite csize_loc.
  destruct (valid_grid_inv g Hv) as (n0&n1&n2&n3&l0&l1&l2&l3&Hg&Hl&Hn&Hll).
  unfold csize. rewrite Hl. unfold pars, edge_dir. 
  cbn [map dirs parprod kept Z.eqb prodZ fold_right nth perpDirs edge_dirs flat_map filter Nat.ltb Nat.leb app fst snd].
  apply (f_equal (cons (locVol g))). repeat (apply (f_equal2 (@cons Z)); [ring|]). reflexivity.
Qed.

Lemma sizes_sum : sumZ (sizes g) = locVol g + bordVol g + edgeVol g.
Proof.
  rewrite sizes_explicit. unfold bordVol. rewrite bordVolh_eq, edgeVol_eq.
  cbn [map app sumZ fold_right]. ring.
Qed.

Definition index_of (f : list Z) (fs : list (list Z)) : nat :=
  (fix go (fs : list (list Z)) : nat := match fs with
   | [] => O
   | h :: t => if list_eq_dec Z.eq_dec h f then O else S (go t) end) fs.

(** the index of an extended site is the start of its class plus its row-major index inside *)
Lemma fullLx_class y : ext_site g y ->
  let f := flags g y in
  let k := index_of f classes in
  (k < 33)%nat -> fullLxOfCoords g y = prefix (sizes g) k + row_major (kept f y) (kept f (locSize g)).
Proof.
  intros [Hlen Hy]. destruct (length4 y Hlen) as (y0&y1&y2&y3&->).
  destruct (valid_grid_inv g Hv) as (n0&n1&n2&n3&l0&l1&l2&l3&Hg&Hl&Hn&Hll).
  pose proof (Hy 0%nat ltac:(lia)) as Y0. pose proof (Hy 1%nat ltac:(lia)) as Y1.
  pose proof (Hy 2%nat ltac:(lia)) as Y2. pose proof (Hy 3%nat ltac:(lia)) as Y3. clear Hy.
  rewrite Hl in *. rewrite Hg in Y0, Y1, Y2, Y3. cbn [nth nRanksDir] in Y0,Y1,Y2,Y3.
  destruct (flag_props n0 l0 y0 ltac:(lia) ltac:(lia) Y0) as (A0&B0&C0&_).
  destruct (flag_props n1 l1 y1 ltac:(lia) ltac:(lia) Y1) as (A1&B1&C1&_).
  destruct (flag_props n2 l2 y2 ltac:(lia) ltac:(lia) Y2) as (A2&B2&C2&_).
  destruct (flag_props n3 l3 y3 ltac:(lia) ltac:(lia) Y3) as (A3&B3&C3&_).
  cbn zeta in *.
  unfold flags. rewrite Hl. cbn [map2].
  unfold fullLxOfCoords.
  assert (Ex : map2 Z.modulo [y0;y1;y2;y3] (glbSize g) = [y0 mod (n0*l0); y1 mod (n1*l1); y2 mod (n2*l2); y3 mod (n3*l3)])
    by (rewrite Hg; reflexivity).
  rewrite Ex. clear Ex.
  set (x0 := y0 mod (n0*l0)) in *. set (x1 := y1 mod (n1*l1)) in *.
  set (x2 := y2 mod (n2*l2)) in *. set (x3 := y3 mod (n3*l3)) in *.
  assert (I0 : is_bord g [x0;x1;x2;x3] 0 = flag1 l0 y0).
  { rewrite <- A0. unfold is_bord, isDirParallel. rewrite Hl, Hg. reflexivity. }
  assert (I1 : is_bord g [x0;x1;x2;x3] 1 = flag1 l1 y1).
  { rewrite <- A1. unfold is_bord, isDirParallel. rewrite Hl, Hg. reflexivity. }
  assert (I2 : is_bord g [x0;x1;x2;x3] 2 = flag1 l2 y2).
  { rewrite <- A2. unfold is_bord, isDirParallel. rewrite Hl, Hg. reflexivity. }
  assert (I3 : is_bord g [x0;x1;x2;x3] 3 = flag1 l3 y3).
  { rewrite <- A3. unfold is_bord, isDirParallel. rewrite Hl, Hg. reflexivity. }
  assert (Hdir : forallb (fun mu => (0 <=? [x0;x1;x2;x3].[mu]) && ([x0;x1;x2;x3].[mu] <? (locSize g).[mu])) dirs =
    ((flag1 l0 y0 =? 0) && ((flag1 l1 y1 =? 0) && ((flag1 l2 y2 =? 0) && ((flag1 l3 y3 =? 0) && true))))).
  { rewrite Hl. unfold dirs. cbn [forallb nth]. rewrite B0, B1, B2, B3. reflexivity. }
  rewrite Hdir. clear Hdir A0 A1 A2 A3 B0 B1 B2 B3 Y0 Y1 Y2 Y3.
  unfold bordVol. rewrite edgeVol_eq, bordVolh_eq.
  rewrite (Z.mul_comm 2), quot_mul_r by lia.
  unfold is_one_bord, is_edge_pair.
  cbn [dirs list_prod map app find perpDirs perp2Dirs nth forallb Nat.ltb Nat.leb].
  rewrite I0, I1, I2, I3.
  rewrite sizes_explicit. unfold prefix.
  set (b := bordDirVol g). set (e := edge_dir_vol g).
  assert (F : forall l c, flag1 l c = -1 \/ flag1 l c = 0 \/ flag1 l c = 1).
  { intros l c. unfold flag1. destruct (c =? -1); [auto|]. destruct (c =? l); auto. }
  destruct (F l0 y0) as [F0|[F0|F0]]; destruct (F l1 y1) as [F1|[F1|F1]]; 
  destruct (F l2 y2) as [F2|[F2|F2]]; destruct (F l3 y3) as [F3|[F3|F3]]; 
  rewrite F0, F1, F2, F3;
  match goal with |- context [index_of ?a ?b] => let k := eval vm_compute in (index_of a b) in change (index_of a b) with k end;
  intros Hk; try (exfalso; clear -Hk; lia); clear Hk.
  all: try (destruct C0 as [-> _]; [assumption|]); try (destruct C1 as [-> _]; [assumption|]);
       try (destruct C2 as [-> _]; [assumption|]); try (destruct C3 as [-> _]; [assumption|]).
  all: cbn [Z.eqb Pos.eqb negb andb fst snd kept row_major prodZ fold_right firstn map app sumZ
     edge_numb Nat.min Nat.max edge_dirs flat_map dirs filter Nat.ltb Nat.leb Nat.eqb bordOffset edge_offset nth perpDirs Z.add].
  all: rewrite ?I0, ?I1, ?I2, ?I3, ?F0, ?F1, ?F2, ?F3; cbn [Z.eqb Pos.eqb Z.add Pos.add].
  all: try match goal with |- context [Z.quot (?k * (4 * ?s)) 4] => 
     replace (k * (4*s)) with (k*s*4) by ring; rewrite (quot_mul_r (k*s) 4) by lia end.
  all: unfold loclxOfCoord, bordlxOfCoord, edgelxOfCoord, lxOfCoord; rewrite Hl;
    cbn [combine fold_left fst snd dirs Nat.eqb orb nth]; fold b e; ring.
Qed.
End G.
