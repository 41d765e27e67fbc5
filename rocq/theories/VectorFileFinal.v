From Verif Require Import Base GeometryModel GeometrySpec GeometryProofs OwnerProofs AllToAllModel IldgModel IldgProofs RemapMain
  ParProofs BytesModel BytesSpec BytesProofs IldgFileModel IldgFileSpec IldgFileProofs VectorFileModel VectorFileSpec VectorFileProofs
  VectorFileMain ChecksumSpec ChecksumTextModel ChecksumTextProofs.
From Coq Require Import Permutation.
From Coq Require Import String.
Local Notation length := List.length.

Lemma padded_mult_id d : Z.of_nat (length d) mod 8 = 0 -> padded d = d.
Proof. intros H. unfold padded. replace (- Z.of_nat (length d) mod 8) with 0 by (Z.div_mod_to_equations; lia). cbn [Z.to_nat repeat]. apply app_nil_r. Qed.
Lemma write_messages native f rs : write_all_messages native f (messages rs) = write_list native f rs.
Proof. revert f. induction rs as [|r rs IH]; intros f; cbn [messages write_all_messages write_list fold_left]; auto. apply IH. Qed.

Definition check_name : list Z := [115; 99; 105; 100; 97; 99; 45; 99; 104; 101; 99; 107; 115; 117; 109].
Lemma check_name_eq : chars "scidac-checksum" = check_name. Proof. reflexivity. Qed.
Lemma good_check_name : good_name check_name. Proof. split; [cbn; lia|]. repeat constructor; lia. Qed.
Definition check_record (c : Z * Z) : list Z * list Z := (check_name, checksum_message c ++ [0]).
Lemma good_check a b : 0 <= a < 2 ^ 32 -> 0 <= b < 2 ^ 32 -> good_record (check_record (a, b)).
Proof.
  intros Ha Hb. split; [apply good_check_name|]. cbn [check_record snd]. rewrite app_length. pose proof (message_length a b Ha Hb). cbn [List.length]. lia.
Qed.
Lemma cstr_app n rest : Forall (fun c => 0 < c < 256) n -> cstr (n ++ 0 :: rest) = Some n.
Proof. induction 1 as [|c n Hc H IH]; cbn [app cstr]; auto. destruct (Z.eqb_spec c 0); [lia|]. now rewrite IH. Qed.

Lemma read_check_main native ignore c1 rs a b c2 fuel : 0 <= a < 2 ^ 32 -> 0 <= b < 2 ^ 32 -> Z.of_nat (length c1) mod 8 = 0 -> 
  Forall good_record rs -> ~ In check_name (map fst rs) -> (length rs < fuel)%nat ->
  let c := c1 ++ flat_map record_bytes rs ++ record_bytes (check_record (a, b)) ++ c2 in
  read_checksum fuel native ignore (mkFile c (Z.of_nat (length c1))) =
  Ok (Some (a, b), mkFile c (Z.of_nat (length (c1 ++ flat_map record_bytes rs ++ record_bytes (check_record (a, b)))))).
Proof.
  intros Ha Hb H1 Hrs Hn Hf c. unfold read_checksum. rewrite check_name_eq. unfold c.
  pose proof (good_check a b Ha Hb) as HG. set (r := check_record (a, b)) in *.
  replace fuel with (length rs + S (fuel - length rs - 1))%nat by lia. 
  rewrite (search_skips (S (fuel - length rs - 1)) native ignore rs c1 (record_bytes r ++ c2)) by auto.
  pose proof (flat_length rs Hrs) as FL.
  assert (H2 : Z.of_nat (length (c1 ++ flat_map record_bytes rs)) mod 8 = 0) by (rewrite app_length; Z.div_mod_to_equations; lia).
  rewrite app_assoc. set (c1' := c1 ++ flat_map record_bytes rs) in *. rewrite app_assoc.
  change check_name with (fst r). rewrite <- app_assoc. rewrite search_here by auto. cbn [bind].
  cbn [data_length head_of]. rewrite record_split. pose proof (head_length r (proj1 HG)) as HH.
  replace (c1' ++ (head_bytes r ++ padded (snd r)) ++ c2) with ((c1' ++ head_bytes r) ++ padded (snd r) ++ c2) by (now rewrite <- !app_assoc).
  replace (Z.of_nat (length c1') + 144) with (Z.of_nat (length (c1' ++ head_bytes r))) by (rewrite app_length, HH; lia).
  rewrite read_all_mid; [|rewrite app_length, HH; Z.div_mod_to_equations; lia|apply padded_mult]. cbn [bind].
  cbn [r check_record snd]. unfold padded at 1. rewrite <- !app_assoc. cbn [app].
  rewrite cstr_app by (now apply message_chars). rewrite parse_message by auto. 
  f_equal. f_equal. f_equal. unfold c1'. rewrite !app_length. lia.
Qed.

Section Round.
Variables (native : endianness) (sz ndeg : Z) (field : list Z -> site) (L : list Z).
Hypotheses (Hsz : 0 < sz <= 8) (Hnd : 0 < ndeg) (Hshape : forall x, in_box x L -> shaped sz ndeg (field x)).
Hypotheses (H8 : (prodZ L * (ndeg * sz)) mod 8 = 0) (Hbig : prodZ L * (ndeg * sz) < 2 ^ 63 - 8).
Definition good_split (g : grid) : Prop :=
  valid_grid g = true /\ glb_fits_int g /\ Z.rem (glbSize g).[0] (nranks g) = 0 /\ glbSize g = L.
Definition data_record (name : list Z) := (name, payload native L field).

Lemma good_data g name : good_split g -> good_name name -> good_record (data_record name) /\ 
  Z.of_nat (length (payload native L field)) = prodZ L * (ndeg * sz).
Proof.
  intros (Hv & Hfit & Hdiv & EL) Hn. rewrite <- EL in *.
  assert (E : Z.of_nat (length (payload native (glbSize g) field)) = prodZ (glbSize g) * (ndeg * sz)).
  { apply (payload_length native g seqZ sz ndeg field Hv Hdiv (fun m i => in_seqZ m i) Hshape). }
  split; auto. split; auto. cbn [data_record snd]. rewrite EL in *. lia.
Qed.
Lemma data_format g order sched data garbage f name : good_split g -> Permutation order (seqZ (nranks g)) ->
  (forall m i, In i (sched m) <-> 0 <= i < m) ->
  (forall x r i, in_box x L -> getLoclxAndRankOfCoords g x = (r, i) -> data r i = field x) ->
  at_end f -> good_name name ->
  write_ildg_data_all native g sched order sz ndeg f data garbage name = Ok (mkFile (content f ++ record_bytes (data_record name)) (fsize f + Z.of_nat (length (record_bytes (data_record name))))).
Proof.
  intros Hg HP Hs Hd Hf Hn. destruct (good_data g name Hg Hn) as [HG EP]. destruct Hg as (Hv & Hfit & Hdiv & EL).
  pose proof (write_data_main native g sched sz ndeg field Hv Hfit Hdiv Hs (proj1 Hsz) Hnd) as W. rewrite EL in W.
  rewrite (W Hshape data garbage Hd order f name HP Hf Hn H8).
  assert (E : record_bytes (data_record name) = data_head g sz ndeg name ++ payload native L field).
  { pose proof (padded_mult_id (payload native L field)) as PP. rewrite EP in PP. specialize (PP H8).
    rewrite record_split. unfold head_bytes, data_head, data_record. cbn [fst snd]. rewrite PP, EP, EL. reflexivity. }
  rewrite E. f_equal. f_equal. rewrite app_length, Nat2Z.inj_add, EP. unfold data_head. rewrite !app_length, !bytes_of_length, repeat_length. destruct Hn as [Hn _]. cbn [List.length]. lia.
Qed.

Variables (g g' : grid) (sched sched' : Z -> list Z) (order : list Z).
Hypotheses (Hg : good_split g) (Hg' : good_split g').
Hypotheses (Hs : forall m i, In i (sched m) <-> 0 <= i < m) (Hs' : forall m i, In i (sched' m) <-> 0 <= i < m).
Hypothesis (HP : Permutation order (seqZ (nranks g))).
Variable data : Z -> Z -> site.
Hypothesis Hd : forall x r i, in_box x L -> getLoclxAndRankOfCoords g x = (r, i) -> data r i = field x.
Variables (f0 : file) (rs : list (list Z * list Z)) (name : list Z) (a b : Z).
Hypotheses (Hf0 : at_end f0) (Hrs : Forall good_record rs) (Hname : good_name name) (Hnew : ~ In name (map fst rs)).
Hypotheses (Ha : 0 <= a < 2 ^ 32) (Hb : 0 <= b < 2 ^ 32).

Lemma write_format garbage : exists f1,
  write_real_vector native g sched order sz ndeg f0 data garbage name (Some (messages rs)) (a, b) = Ok f1 /\ at_end f1 /\
  content f1 = content f0 ++ flat_map record_bytes (rs ++ [data_record name; check_record (a, b)]).
Proof.
  unfold write_real_vector. rewrite write_messages. destruct (write_list_format native f0 rs Hf0 Hrs) as [A1 A2].
  rewrite (data_format g order sched data garbage (write_list native f0 rs) name Hg HP Hs Hd A1 Hname). cbn [bind].
  set (f2 := mkFile _ _).
  assert (A3 : at_end f2).
  { destruct (good_data g name Hg Hname) as [HG _]. pose proof (record_at_end native (write_list native f0 rs) (data_record name) A1 HG) as R.
    rewrite record_format in R by auto. exact R. }
  unfold write_checksum, write_text_record. rewrite check_name_eq.
  pose proof (good_check a b Ha Hb) as HC. change check_name with (fst (check_record (a, b))). change (checksum_message (a, b) ++ [0]) with (snd (check_record (a, b))).
  eexists. split; [reflexivity|]. split; [now apply record_at_end|].
  rewrite record_format by auto. cbn [content f2]. rewrite A2, flat_map_app. cbn [flat_map]. now rewrite app_nil_r, <- !app_assoc.
Qed.

Lemma round_trip garbage ignore garbage' m : exists f1,
  write_real_vector native g sched order sz ndeg f0 data garbage name (Some (messages rs)) (a, b) = Ok f1 /\
  forall fuel, (length rs + 1 < fuel)%nat -> exists outs,
  read_real_vector fuel native ignore g' sched' sz ndeg garbage' (mkFile (content f1) (fsize f0)) name m =
    Ok (mess_add m rs, outs, Some (a, b)) /\
  Forall2 (fun r out => forall x i, in_box x L -> getLoclxAndRankOfCoords g' x = (r, i) -> out i = Some (field x)) (seqZ (nranks g')) outs.
Proof.
  destruct (write_format garbage) as (f1 & E1 & A1 & C1). exists f1. split; auto. intros fuel Hfuel.
  unfold read_real_vector. rewrite C1. rewrite flat_map_app. cbn [flat_map]. rewrite app_nil_r.
  destruct (good_data g name Hg Hname) as [HG EP]. destruct Hf0 as [P0 Q0].
  set (rd := record_bytes (data_record name)). set (rc := record_bytes (check_record (a, b))).
  unfold fsize in *. set (c0 := content f0) in *.
  assert (Q1 : Z.of_nat (length (c0 ++ flat_map record_bytes rs)) mod 8 = 0) by (rewrite app_length; pose proof (flat_length rs Hrs); Z.div_mod_to_equations; lia).
  set (c1 := c0 ++ flat_map record_bytes rs) in *.
  assert (SS : search_record fuel native ignore (mkFile (c0 ++ flat_map record_bytes rs ++ rd ++ rc) (Z.of_nat (length c0))) name m =
    Ok (Some (head_of name (Z.of_nat (length (padded (payload native L field))))), mess_add m rs, mkFile (c1 ++ rd ++ rc) (Z.of_nat (length c1) + 144))).
  { replace fuel with (length rs + S (fuel - length rs - 1))%nat by lia.
    rewrite search_skips by auto. rewrite app_assoc. fold c1. exact (search_here (fuel - length rs - 1) native ignore c1 (data_record name) rc (mess_add m rs) Q1 HG). }
  rewrite SS. cbn [bind]. cbn [data_length head_of].
  pose proof (padded_mult_id (payload native L field)) as PP. rewrite EP in PP. specialize (PP H8). rewrite PP, EP.
  destruct Hg' as (Hv' & Hfit' & Hdiv' & EL').
  assert (Evol : glbVol g' = prodZ L) by (unfold glbVol; rewrite EL'; apply volOfLx_prodZ).
  assert (HL : 0 < prodZ L) by (destruct (glbVol_split g' Hv') as (X & Y & W); rewrite EL' in X; rewrite X; now apply Z.mul_pos_pos).
  rewrite Evol. replace (Z.quot (prodZ L * (ndeg * sz)) (prodZ L)) with (ndeg * sz) by (rewrite (Z.mul_comm (prodZ L)), Z.quot_mul; lia).
  destruct (Z.ltb_spec (ndeg * 8) (ndeg * sz)) as [HX|HX]; [nia|].
  assert (Erd : rd = head_bytes (data_record name) ++ payload native L field) by (unfold rd; rewrite record_split; cbn [data_record snd]; now rewrite PP).
  set (c1' := c1 ++ head_bytes (data_record name)).
  assert (Lc : Z.of_nat (length c1') = Z.of_nat (length c1) + 144) by (unfold c1'; rewrite app_length, (head_length (data_record name) Hname); lia).
  replace (c1 ++ rd ++ rc) with (c1' ++ payload native L field ++ rc).
  2:{ rewrite Erd. unfold c1'. now rewrite <- !app_assoc. }
  rewrite <- Lc.
  pose proof (read_data_main native g' sched' sz ndeg field Hv' Hfit' Hdiv' Hs' (proj1 Hsz) Hnd) as R. rewrite EL' in R.
  specialize (R Hshape c1' rc garbage' (head_of name (prodZ L * (ndeg * sz))) eq_refl H8). cbv zeta in R.
  destruct R as (outs & ER & HF). exists outs. split; [|exact HF]. unfold head_of in ER |- *. rewrite ER. cbn [bind content].
  replace (Z.of_nat (length c1') + prodZ L * (ndeg * sz)) with (Z.of_nat (length (c1' ++ payload native L field))) by (rewrite app_length; lia).
  pose proof (read_check_main native ignore (c1' ++ payload native L field) [] a b [] fuel Ha Hb) as RC. cbv zeta in RC. cbn [flat_map app] in RC.
  rewrite app_nil_r, <- app_assoc in RC. fold rc in RC. rewrite RC; auto; cbn [List.length]; try lia.
  rewrite app_length; Z.div_mod_to_equations; lia.
Qed.
End Round.
