(** Properties C32 (reading of the input file), C33 (configuration file), C62 (nested input files). *)
From Verif Require Import Base MemModel InputModel InputSpec InputUse InputProofs InputMain InputExamples.
Open Scope Z_scope.
Local Notation length := List.length.

(** C32: whatever the layout (white space, line breaks, comments between the words), reading variables one after the other
    gives the words of the file in order, each converted in the asked format, and never fails. *)
Theorem C32_words : forall items text fs ws vs more,
  Forall wf_item items -> spaced (tokens_of items) text -> words_of items = ws ++ more -> gives_all fs ws vs ->
  exists st, read_all fs (open_stream text) = Ok (map Some vs, st).
Proof. exact c32_words. Qed.
Print Assumptions C32_words.
Example C32_meets : exists items text fs ws vs, Forall wf_item items /\ spaced (tokens_of items) text /\
  words_of items = ws ++ [] /\ gives_all fs ws vs /\ vs = [VStr [97; 98]; VInt (-12); VStr [67]; VInt 7] /\
  text = [97; 98; 32; 47; 42; 32; 120; 120; 32; 42; 47; 32; 45; 49; 50; 10; 67; 32; 47; 42; 42; 47; 32; 55; 32].
Proof.
  exists sample_items, sample_text, [FStr 10; FInt; FStr 2; FInt], (words_of sample_items), [VStr [97; 98]; VInt (-12); VStr [67]; VInt 7].
  split; [exact sample_wf|]. split; [exact sample_spaced|]. split; [reflexivity|]. split; [exact sample_gives|]. auto.
Qed.

(** one read more than there are words: if the file ends with white space (or is empty) it returns leaving the variable
    untouched, otherwise it aborts *)
Theorem C32_past_the_end : forall items text fs vs f,
  Forall wf_item items -> spaced (tokens_of items) text -> gives_all fs (words_of items) vs ->
  ((terminated text \/ tokens_of items = []) /\
   exists st, read_all (fs ++ [f]) (open_stream text) = Ok (map Some vs ++ [None], st)) \/
  (~ terminated text /\ read_all (fs ++ [f]) (open_stream text) = Crash).
Proof. exact c32_past_the_end. Qed.
Print Assumptions C32_past_the_end.

(** hence "a value which is missing aborts the program" is false of every file ending with a line break *)
Theorem C32_missing_refuted : forall items text vs fs (old : Z),
  Forall wf_item items -> spaced (tokens_of items) text -> terminated text -> gives_all fs (words_of items) vs ->
  exists st st', read_all fs (open_stream text) = Ok (map Some vs, st) /\ read_int old st = Ok (old, st').
Proof.
  intros items text vs fs old W S T G.
  destruct (c32_words items text fs _ vs [] W S (eq_sym (app_nil_r _)) G) as (st & R).
  destruct (c32_past_the_end items text fs vs FInt W S G) as [(_ & st' & R')|(N & _)]; [|tauto].
  rewrite (read_all_app _ [FInt] _ _ _ R) in R'. cbn [read_all] in R'. exists st.
  unfold read_int. destruct (read_var FInt st) as [[o s]| |]; cbn [rbind] in *; try discriminate.
  injection R' as R' _. apply app_inv_head in R'. injection R' as ->. eauto.
Qed.
Print Assumptions C32_missing_refuted.

(** a comment which is not closed aborts at the first read that meets it, instead of being taken as data *)
Theorem C32_unclosed : forall items text t ts f fs vs,
  Forall wf_item items -> spaced (tokens_of items ++ t :: ts) text -> gives_all fs (words_of items) vs ->
  starts t -> Forall (fun u => (2 <= length u)%nat /\ ~ ends u) (t :: ts) ->
  read_all (fs ++ [f]) (open_stream text) = Crash.
Proof. exact c32_unclosed. Qed.
Print Assumptions C32_unclosed.
(** the text "7 /* xx\n" *)
Example C32_unclosed_meets : exists items text t ts, Forall wf_item items /\ spaced (tokens_of items ++ t :: ts) text /\
  gives_all [FInt] (words_of items) [VInt 7] /\ starts t /\ Forall (fun u => (2 <= length u)%nat /\ ~ ends u) (t :: ts) /\
  read_all [FInt; FInt] (open_stream text) = Crash.
Proof.
  exists [Word [55]], [55; 32; 47; 42; 32; 120; 120; 10], [47; 42], [[120; 120]].
  split. { constructor; [split; [tokt|apply no_start1]|constructor]. }
  split. { cbn [tokens_of flat_map app]. eapply (sp_cons []); [reflexivity|reflexivity|tokt| |reflexivity].
           repeat (eapply (sp_cons [_]); [reflexivity|reflexivity|tokt| |reflexivity]). now apply sp_nil. }
  split. { cbn. repeat constructor; [apply dec_7|discriminate]. }
  split; [now exists []|].
  split; [repeat constructor; try (cbn; lia); apply no_end; lia|reflexivity].
Qed.

(** a list of integers written with its tag (in any case) and its length is read exactly; another tag aborts *)
Theorem C32_list : forall items text tag w n zs nums more junk,
  Forall wf_item items -> spaced (tokens_of items) text ->
  words_of items = w :: n :: nums ++ more -> same_word tag w ->
  decimal (Z.of_nat (length zs)) n -> int32 (Z.of_nat (length zs)) ->
  Forall2 (fun z w => decimal z w /\ int32 z) zs nums ->
  exists st, read_list_of_ints tag junk (open_stream text) = Ok (map Some zs, st).
Proof. exact c32_list. Qed.
Print Assumptions C32_list.
Theorem C32_wrong_tag : forall items text tag w ws junk,
  Forall wf_item items -> spaced (tokens_of items) text ->
  words_of items = w :: ws -> ~ same_word tag w ->
  read_list_of_ints tag junk (open_stream text) = Crash.
Proof. exact c32_wrong_tag. Qed.
Print Assumptions C32_wrong_tag.
(** tag "AB" and text "ab 1 7 " *)
Example C32_list_meets : exists items text tag w n zs nums, Forall wf_item items /\ spaced (tokens_of items) text /\
  words_of items = w :: n :: nums ++ [] /\ same_word tag w /\ tag <> w /\ decimal (Z.of_nat (length zs)) n /\
  Forall2 (fun z w => decimal z w /\ int32 z) zs nums /\ zs = [7].
Proof.
  exists [Word [97; 98]; Word [49]; Word [55]], [97; 98; 32; 49; 32; 55; 32], [65; 66], [97; 98], [49], [7], [[55]].
  split. { constructor; [split; [tokt|apply no_start; lia]|]. repeat (constructor; [split; [tokt|apply no_start1]|]). constructor. }
  split. { cbn [tokens_of flat_map app]. eapply (sp_cons []); [reflexivity|reflexivity|tokt| |reflexivity].
           repeat (eapply (sp_cons [_]); [reflexivity|reflexivity|tokt| |reflexivity]). now apply sp_nil. }
  split; [reflexivity|]. split. { constructor; [right; left; lia|]. constructor; [right; left; lia|constructor]. }
  split; [discriminate|]. split; [apply dec_1|]. split; [|reflexivity].
  constructor; [|constructor]. split; [apply dec_7|split; discriminate || reflexivity].
Qed.

(** a comment with a word of one character, as "/* a */ 7 ", makes the test for the end of the comment read outside of the
    buffer *)
Theorem C32_single_char_refuted : read_all [FInt] (open_stream [47; 42; 32; 97; 32; 42; 47; 32; 55; 32]) = Undef.
Proof. reflexivity. Qed.
Print Assumptions C32_single_char_refuted.
(** "1.5" is accepted as the integer 1 *)
Theorem C32_not_a_number_refuted : exists st, read_all [FInt] (open_stream [49; 46; 53; 32]) = Ok ([Some (VInt 1)], st).
Proof. eexists. reflexivity. Qed.
Print Assumptions C32_not_a_number_refuted.

(** C33: the configuration file gives each known parameter its last value, leaves the others untouched, skips the unknown
    ones or aborts as asked; without a file nothing changes *)
Theorem C33_config : forall items text ps es wss,
  Forall wf_item items -> spaced (tokens_of items) text -> terminated text ->
  Forall2 (says ps) es wss -> words_of items = concat wss -> NoDup (map fst ps) ->
  read_nissa_config_file (Some text) ps =
  match meaning ignore_name ps es with Some ps' => Ok ps' | None => Crash end.
Proof. exact c33_config. Qed.
Print Assumptions C33_config.
Example C33_meets : exists items text es wss ps', Forall wf_item items /\ spaced (tokens_of items) text /\ terminated text /\
  Forall2 (says conf_params) es wss /\ words_of items = concat wss /\ NoDup (map fst conf_params) /\
  read_nissa_config_file (Some text) conf_params = Ok ps' /\ ps' = [(ignore_name, 1); ([97; 97], -12); ([98; 98], 6)].
Proof.
  exists conf_items, conf_text, conf_entries, conf_words, [(ignore_name, 1); ([97; 97], -12); ([98; 98], 6)].
  split; [exact conf_wf|]. split; [exact conf_spaced|]. split; [exact conf_terminated|]. split; [exact conf_says|].
  split; [reflexivity|]. split; [exact conf_nodup|]. split; reflexivity.
Qed.
Theorem C33_no_file : forall ps, read_nissa_config_file None ps = Ok ps.
Proof. reflexivity. Qed.
Print Assumptions C33_no_file.
(** a name without its value aborts *)
Theorem C33_missing_value : forall items text ps es wss n,
  Forall wf_item items -> spaced (tokens_of items) text -> terminated text ->
  Forall2 (says ps) es wss -> words_of items = concat wss ++ [n] -> (length n < 100)%nat -> NoDup (map fst ps) ->
  read_nissa_config_file (Some text) ps = Crash.
Proof. exact c33_missing. Qed.
Print Assumptions C33_missing_value.
(** a correct file which does not end with white space aborts, whatever it says *)
Theorem C33_unterminated_refuted : forall items text ps es wss,
  Forall wf_item items -> spaced (tokens_of items) text -> ~ terminated text -> tokens_of items <> [] ->
  Forall2 (says ps) es wss -> words_of items = concat wss -> NoDup (map fst ps) ->
  read_nissa_config_file (Some text) ps = Crash.
Proof. exact c33_unterminated. Qed.
Print Assumptions C33_unterminated_refuted.

(** C62: after opening an input file, using it (and further ones, well nested) and closing it, the file read before is
    current again at the position where it was left; if there was none, none is *)
Theorem C62_nested_inputs : forall content i j, balanced (open_input content i) j ->
  match current i with
  | Some s => close_input j = Ok (mkInputs (Some s) (stack i))
  | None => stack i = [] -> close_input j = Ok (mkInputs None [])
  end.
Proof. exact c62_restores. Qed.
Print Assumptions C62_nested_inputs.
Example C62_meets : exists i j s, current i = Some s /\ rest s = [98; 32] /\ balanced (open_input [49; 32] i) j /\
  current j <> Some (open_stream [49; 32]) /\ stack j <> stack i.
Proof.
  set (s := mkStream [98; 32] false). set (i := mkInputs (Some s) []).
  exists i, (mkInputs (Some (mkStream [32] false)) [s]), s.
  split; [reflexivity|]. split; [reflexivity|]. split.
  - apply (bal_nest [50; 32] _ (mkInputs (Some (open_stream [50; 32])) [s; open_stream [49; 32]]) (mkInputs (Some (open_stream [49; 32])) [s])).
    + constructor.
    + reflexivity.
    + apply bal_read with (s' := mkStream [32] false). constructor.
  - split; discriminate.
Qed.
