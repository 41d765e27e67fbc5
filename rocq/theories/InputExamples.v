(** A concrete input text and a concrete configuration file, meeting the hypotheses of the theorems of Prop_Input. *)
From Verif Require Import Base MemModel InputModel InputSpec InputUse.
Open Scope Z_scope.
Local Notation length := List.length.

Definition sp (c : Z) : bool := (c =? 32) || ((9 <=? c) && (c <=? 13)).
Lemma sp_iff c : sp c = true <-> space c.
Proof. unfold sp, space. rewrite orb_true_iff, andb_true_iff, Z.eqb_eq, !Z.leb_le. tauto. Qed.

Lemma tok_ok t : t <> [] -> forallb (fun c => negb (sp c)) t = true -> (length t <? 1024)%nat = true -> token t.
Proof.
  intros N F L. split; [auto|]. split; [|now apply Nat.ltb_lt].
  rewrite Forall_forall. rewrite forallb_forall in F. intros c H S. specialize (F c H). apply negb_true_iff in F.
  apply sp_iff in S. congruence.
Qed.
Lemma sp_cons s t ts text all : all = s ++ t ++ text -> forallb sp s = true -> token t -> spaced ts text ->
  (match text with [] => true | c :: _ => sp c end) = true -> spaced (t :: ts) all.
Proof.
  intros -> A B C D. constructor; auto.
  - rewrite Forall_forall. rewrite forallb_forall in A. intros c H. apply sp_iff. auto.
  - destruct text as [|c r]; [now left|]. right. exists c, r. split; auto. now apply sp_iff.
Qed.
Lemma sp_nil s : forallb sp s = true -> spaced [] s.
Proof. intros A. constructor. rewrite Forall_forall. rewrite forallb_forall in A. intros c H. apply sp_iff. auto. Qed.

Lemma no_start a b r : (a <> 47 \/ b <> 42) -> ~ starts (a :: b :: r).
Proof. intros H (q & E). injection E. intros. lia. Qed.
Lemma no_start1 a : ~ starts [a].
Proof. intros (q & E). discriminate. Qed.
Lemma no_end a b : (a <> 42 \/ b <> 47) -> ~ ends [a; b].
Proof.
  intros H (r & E). destruct r as [|x [|y r]]; cbn in E.
  - injection E as -> ->. lia.
  - discriminate.
  - injection E as _ _ E. symmetry in E. apply app_eq_nil in E. destruct E as [_ E]. discriminate.
Qed.

(** the text "ab /* xx */ -12\nC /**/ 7 " *)
Definition sample_items : list item :=
  [Word [97; 98]; Comment [[47; 42]; [120; 120]; [42; 47]]; Word [45; 49; 50]; Word [67]; Comment [[47; 42; 42; 47]]; Word [55]].
Definition sample_text : list Z :=
  [97; 98; 32; 47; 42; 32; 120; 120; 32; 42; 47; 32; 45; 49; 50; 10; 67; 32; 47; 42; 42; 47; 32; 55; 32].

Ltac tokt := apply tok_ok; [discriminate|reflexivity|reflexivity].
Lemma sample_wf : Forall wf_item sample_items.
Proof.
  unfold sample_items. constructor; [split; [tokt|apply no_start; lia]|].
  constructor.
  { split; [repeat constructor; solve [tokt | cbn; lia | discriminate | easy | unfold space; lia]|].
    exists [[47; 42]; [120; 120]], [42; 47]. split; auto. split; [now exists []|]. split; [|now exists []].
    repeat constructor; apply no_end; lia. }
  constructor; [split; [tokt|apply no_start; lia]|].
  constructor; [split; [tokt|apply no_start1]|].
  constructor.
  { split; [repeat constructor; solve [tokt | cbn; lia | discriminate | easy | unfold space; lia]|].
    exists [], [47; 42; 42; 47]. split; auto. split; [now exists [47; 42]|]. split; [constructor|now exists [42; 47]]. }
  constructor; [split; [tokt|apply no_start1]|constructor].
Qed.
Lemma sample_spaced : spaced (tokens_of sample_items) sample_text.
Proof.
  cbn [tokens_of sample_items flat_map app]. unfold sample_text.
  eapply (sp_cons []); [reflexivity|reflexivity|tokt| |reflexivity].
  repeat (eapply (sp_cons [_]); [reflexivity|reflexivity|tokt| |reflexivity]).
  now apply sp_nil.
Qed.
Lemma sample_terminated : terminated sample_text.
Proof. exists (removelast sample_text), 32. split; [reflexivity|now left]. Qed.

Lemma dec_ok neg ds z : ds <> [] -> Forall (fun c => 48 <= c <= 57) ds ->
  z = (if neg : bool then - digits_value ds else digits_value ds) -> decimal z ((if neg then [45] else []) ++ ds).
Proof. intros A B C. exists neg, ds. auto. Qed.
Lemma dec_m12 : decimal (-12) [45; 49; 50].
Proof. apply (dec_ok true [49; 50]); [easy|repeat constructor; lia|reflexivity]. Qed.
Lemma dec_7 : decimal 7 [55].
Proof. apply (dec_ok false [55]); [easy|repeat constructor; lia|reflexivity]. Qed.
Lemma dec_1 : decimal 1 [49].
Proof. apply (dec_ok false [49]); [easy|repeat constructor; lia|reflexivity]. Qed.

Lemma sample_gives : gives_all [FStr 10; FInt; FStr 2; FInt] (words_of sample_items)
                               [VStr [97; 98]; VInt (-12); VStr [67]; VInt 7].
Proof.
  cbn. repeat constructor; cbn; try lia; [apply dec_m12|apply dec_7].
Qed.

(** the configuration "ignore_unknown_parameters 1 /**/ zz z aa -12 ", zz unknown *)
Definition conf_params : list (list Z * Z) := [(ignore_name, 0); ([97; 97], 5); ([98; 98], 6)].
Definition conf_items : list item :=
  [Word ignore_name; Word [49]; Comment [[47; 42; 42; 47]]; Word [122; 122]; Word [122]; Word [97; 97]; Word [45; 49; 50]].
Definition conf_entries : list entry := [Assign ignore_name 1; Unknown [122; 122] [122]; Assign [97; 97] (-12)].
Definition conf_words : list (list (list Z)) := [[ignore_name; [49]]; [[122; 122]; [122]]; [[97; 97]; [45; 49; 50]]].
Definition conf_text : list Z :=
  ignore_name ++ [32; 49; 32; 47; 42; 42; 47; 10; 122; 122; 32; 122; 10; 97; 97; 32; 45; 49; 50; 10].
Lemma conf_wf : Forall wf_item conf_items.
Proof.
  unfold conf_items. constructor; [split; [tokt|apply no_start; lia]|].
  constructor; [split; [tokt|apply no_start1]|].
  constructor.
  { split; [repeat constructor; solve [tokt | cbn; lia | discriminate | easy | unfold space; lia]|].
    exists [], [47; 42; 42; 47]. split; auto. split; [now exists [47; 42]|]. split; [constructor|now exists [42; 47]]. }
  constructor; [split; [tokt|apply no_start; lia]|].
  constructor; [split; [tokt|apply no_start1]|].
  constructor; [split; [tokt|apply no_start; lia]|].
  constructor; [split; [tokt|apply no_start; lia]|constructor].
Qed.
Lemma conf_spaced : spaced (tokens_of conf_items) conf_text.
Proof.
  cbn [tokens_of conf_items flat_map app]. unfold conf_text.
  eapply (sp_cons []); [reflexivity|reflexivity|tokt| |reflexivity].
  repeat (eapply (sp_cons [_]); [reflexivity|reflexivity|tokt| |reflexivity]).
  now apply sp_nil.
Qed.
Lemma conf_terminated : terminated conf_text.
Proof. exists (removelast conf_text), 10. split; [reflexivity|]. right. lia. Qed.
Lemma conf_says : Forall2 (says conf_params) conf_entries conf_words.
Proof.
  constructor; [|constructor; [|constructor; [|constructor]]].
  - split; [now left|]. split; [cbn; lia|]. split; [unfold int32; lia|]. exists [49]. split; [apply dec_1|auto].
  - split; [cbn; intros [H|[H|[H|[]]]]; discriminate|]. split; [cbn; lia|]. split; [cbn; lia|auto].
  - split; [right; now left|]. split; [cbn; lia|]. split; [unfold int32; lia|]. exists [45; 49; 50]. split; [apply dec_m12|auto].
Qed.
Lemma conf_nodup : NoDup (map fst conf_params).
Proof. repeat constructor; cbn; intuition discriminate. Qed.
Lemma conf_meaning : meaning ignore_name conf_params conf_entries = Some [(ignore_name, 1); ([97; 97], -12); ([98; 98], 6)].
Proof. reflexivity. Qed.
