(* Properties C40 (memory manager), C41 (registry of vectors), C53 (value with extreme). *)
From Coq Require Import List Bool ZArith Lia Permutation.
From Verif Require Import ExtremeModel ExtremeSpec ExtremeProofs
  MemModel MemSpec MemProofs MemMain VectModel VectSpec VectProofs VectMain.
Import ListNotations.
Open Scope Z_scope.

(* ---------------- C53 ---------------- *)

(* For any strict total order, any sequence of =, +=, -= and reset: the value is the
   last one held and extreme() is the extreme of those held since the last reset. *)
Theorem C53_extreme :
  forall (T : Type) (ltb : T -> T -> bool) (add sub : T -> T -> T) (E : Extreme),
  strict_total ltb ->
  forall (init : T) (ops : list (ExtremeModel.vop T)), no_copy ops ->
  vval (vrun ltb add sub E init ops) = current add sub init ops /\
  is_extreme ltb E (vextr (vrun ltb add sub E init ops)) (held add sub init ops).
Proof. exact extreme_correct. Qed.
Print Assumptions C53_extreme.

Example C53_meets : strict_total Z.ltb /\
  no_copy [OpAdd 5; OpSub 9; OpSet 2] /\
  held Z.add Z.sub 1 [OpAdd 5; OpSub 9; OpSet 2] = [2; -3; 6; 1] /\
  vextr (vrun Z.ltb Z.add Z.sub MAXIMUM 1 [OpAdd 5; OpSub 9; OpSet 2]) = 6 /\
  vextr (vrun Z.ltb Z.add Z.sub MINIMUM 1 [OpAdd 5; OpSub 9; OpSet 2]) = -3.
Proof.
  split; [exact Zltb_strict_total|]. split; [|repeat split].
  intros o [H|[H|[H|[]]]]; discriminate.
Qed.

(* Assigning one ValWithMax to another copies the extreme too: the first then
   forgets that it held 10. *)
Theorem C53_copy_refuted :
  exists (ops : list (ExtremeModel.vop Z)),
  ~ is_extreme Z.ltb MAXIMUM (vextr (vrun Z.ltb Z.add Z.sub MAXIMUM 10 ops))
               (held Z.add Z.sub 10 ops).
Proof.
  exists [OpCopy (vreset 3)]. intros [_ H]. specialize (H 10). cbn in H.
  discriminate H. auto.
Qed.
Print Assumptions C53_copy_refuted.

(* ---------------- C40 ---------------- *)

(* A block provided is not null, is aligned as asked, and does not overlap any
   block in the hands of the user, after any history of calls. *)
Theorem C40_fresh :
  forall os h peak m szT nel al ans p m',
  hist os h peak m ->
  0 < szT -> 0 < nel -> szT * nel < 2 ^ 63 -> 0 < al ->
  allocator_may_answer (heap m) (szT * nel) al ans ->
  provide szT nel al ans m = Ok (p, m') ->
  0 < p /\ p mod al = 0 /\
  forall q k, In (q, k) h -> disjoint p (szT * nel) q k.
Proof. exact provide_fresh. Qed.
Print Assumptions C40_fresh.

(* At any time the blocks in hand are disjoint, and have not been given back to
   the system. *)
Theorem C40_blocks_disjoint :
  forall os h peak m, hist os h peak m ->
  NoDup (map fst h) /\
  (forall p n q k, In (p, n) h -> In (q, k) h -> p <> q -> disjoint p n q k) /\
  (forall p n, In (p, n) h -> In (p, n) (heap m)).
Proof. exact in_hand_disjoint. Qed.
Print Assumptions C40_blocks_disjoint.

(* Accounting: the table of used blocks is what the user has in hand, the used size
   is its total, the maximum is the highest total reached, the cached size is
   what is held from the system and not in hand. *)
Theorem C40_accounting :
  forall os h peak m, hist os h peak m ->
  Permutation (used m) h /\
  vval (usedSize m) = total h /\ vextr (usedSize m) = peak /\
  vval (cachedSize m) = total (heap m) - total h.
Proof. exact accounting. Qed.
Print Assumptions C40_accounting.

(* No call is undefined (no double free); a call aborts only if the system has no
   memory or the pointer released is not in hand. *)
Theorem C40_never_undefined :
  forall os h peak m o, hist os h peak m -> sensible o ->
  (match o with
   | Provide szT nel al ans => allocator_may_answer (heap m) (szT * nel) al ans
   | _ => True end) ->
  mexec false o m <> Undef /\
  (mexec false o m = Crash ->
   match o with
   | Provide _ _ _ ans => ans = None
   | Release p => p <> 0 /\ ~ In p (map fst h)
   | _ => False
   end).
Proof. exact never_undefined. Qed.
Print Assumptions C40_never_undefined.

Theorem C40_release_unknown :
  forall os h peak m p, hist os h peak m ->
  p <> 0 -> ~ In p (map fst h) -> release p m = Crash.
Proof. exact release_unknown. Qed.
Print Assumptions C40_release_unknown.

(* The cache works: a block just released is the one given to the next request of
   the same size whose alignment it satisfies, without asking the system. *)
Theorem C40_reuse :
  forall os h peak m p n szT nel al ans m1, hist os h peak m ->
  useCache m = true -> In (p, n) h -> release p m = Ok m1 ->
  n = szT * nel -> 0 < szT -> 0 < nel -> n < 2 ^ 63 -> 0 < al -> p mod al = 0 ->
  exists m2, provide szT nel al ans m1 = Ok (p, m2) /\ nAlloc m2 = nAlloc m1 /\
             heap m2 = heap m.
Proof. exact reuse. Qed.
Print Assumptions C40_reuse.

(* If all alignments asked are multiples of 16, clearing the cache leaves exactly the
   blocks in hand and destroying the manager gives everything back. *)
Theorem C40_clear :
  forall os h peak m, hist os h peak m ->
  (forall o, In o os -> default_aligned o) ->
  exists m', clearCache false m = Ok m' /\ Permutation (heap m') h /\
             vval (cachedSize m') = 0.
Proof. exact clear_exact. Qed.
Print Assumptions C40_clear.

Theorem C40_destroy :
  forall os h peak m, hist os h peak m ->
  (forall o, In o os -> default_aligned o) ->
  exists m', destroy false m = Ok m' /\ heap m' = [].
Proof. exact destroy_exact. Qed.
Print Assumptions C40_destroy.

(* A history with two blocks, a release, a reuse and one more block *)
Definition ex_ops :=
  [Provide 8 4 16 (Some 160); Provide 1 16 32 (Some 320); Release 160;
   Provide 4 8 16 (Some 640); ClearCache].
Example C40_meets : exists m,
  hist ex_ops [(160, 32); (320, 16)] 48 m /\
  (forall o, In o ex_ops -> default_aligned o) /\
  nAlloc m = 2 /\ nCachedReused m = 1 /\ useCache m = true.
Proof.
  pose proof hist_nil as H0.
  assert (S1 : sensible (Provide 8 4 16 (Some 160))) by (cbn; lia).
  assert (A1 : allocator_may_answer (heap mm_init) (8 * 4) 16 (Some 160)) by (cbn; repeat split; try lia; easy).
  pose proof (hist_cons _ _ _ _ _ _ _ H0 S1 A1 eq_refl) as H1. cbn in H1.
  assert (S2 : sensible (Provide 1 16 32 (Some 320))) by (cbn; lia).
  match type of H1 with hist _ _ _ ?m =>
    assert (A2 : allocator_may_answer (heap m) (1 * 16) 32 (Some 320)) end.
  { cbn. repeat split; try lia. intros q k [H|[]]; injection H as <- <-; unfold disjoint; lia. }
  pose proof (hist_cons _ _ _ _ _ _ _ H1 S2 A2 eq_refl) as H2. cbn in H2.
  pose proof (hist_cons _ _ _ _ (Release 160) _ _ H2 I I eq_refl) as H3. cbn in H3.
  assert (S4 : sensible (Provide 4 8 16 (Some 640))) by (cbn; lia).
  match type of H3 with hist _ _ _ ?m =>
    assert (A4 : allocator_may_answer (heap m) (4 * 8) 16 (Some 640)) end.
  { cbn. repeat split; try lia. intros q k [H|[H|[]]]; injection H as <- <-; unfold disjoint; lia. }
  pose proof (hist_cons _ _ _ _ _ _ _ H3 S4 A4 eq_refl) as H4. cbn in H4.
  pose proof (hist_cons _ _ _ _ ClearCache _ _ H4 I I eq_refl) as H5. cbn in H5.
  eexists. split; [exact H5|]. split; [|auto].
  intros o [<-|[<-|[<-|[<-|[<-|[]]]]]]; cbn; auto.
Qed.

(* Without that condition on the alignment clearing (and destroying) does not give
   the memory back: a block aligned to 8 only is never popped. *)
Theorem C40_small_alignment_refuted :
  exists os h peak m m', hist os h peak m /\ h = [] /\
  destroy false m = Ok m' /\ heap m' <> [].
Proof.
  assert (S1 : sensible (Provide 1 4 8 (Some 8))) by (cbn; lia).
  assert (A1 : allocator_may_answer (heap mm_init) (1 * 4) 8 (Some 8)) by (cbn; repeat split; try lia; easy).
  pose proof (hist_cons _ _ _ _ _ _ _ hist_nil S1 A1 eq_refl) as H1. cbn in H1.
  pose proof (hist_cons _ _ _ _ (Release 8) _ _ H1 I I eq_refl) as H2. cbn in H2.
  eexists _, _, _, _, _. split; [exact H2|]. split; [reflexivity|].
  split; [reflexivity|]. cbn. discriminate.
Qed.
Print Assumptions C40_small_alignment_refuted.

(* With verbosity level 3, clearing a cache which is not empty reads past the end
   of the table. *)
Theorem C40_verbose_clear_refuted :
  forall os h peak m, hist os h peak m ->
  vval (cachedSize m) <> 0 -> clearCache true m = Undef.
Proof. exact clear_lv3. Qed.
Print Assumptions C40_verbose_clear_refuted.

(* Asking for 2^61 doubles is not refused: the size wraps to 0 and a block of zero
   bytes is handed out as if it were good. *)
Theorem C40_overflow_refuted :
  exists m', provide 8 (2 ^ 61) 16 (Some 160) mm_init = Ok (160, m') /\ used m' = [(160, 0)].
Proof. eexists. split; reflexivity. Qed.
Print Assumptions C40_overflow_refuted.

(* ---------------- C41 ---------------- *)

(* After any history, walking the list gives the base vector and then exactly the live
   vectors in order of allocation, with their sizes, flags and contents; the memory
   in use is the sum of the sizes and the maximum the highest sum reached. *)
Theorem C41_registry :
  forall main os l peak s, main <> 0 -> vhist main os l peak s ->
  (forall fuel, (List.length l + 1 < fuel)%nat ->
     print_all_vect_content main fuel s = Ok (Some (main :: map (fun e => fst e - nissa_vect_sizeof) l)) /\
     compute_vect_memory_usage main fuel s = Ok (Some (bytes l))) /\
  vs_required s = bytes l /\ vs_max s = peak /\
  vs_last s = last (map (fun e => fst e - nissa_vect_sizeof) l) main /\
  (forall p i, In (p, i) l ->
     exists v, vs_mem s (p - nissa_vect_sizeof) = Some v /\
       v_nel v = i_nel i /\ v_size v = i_size i /\ v_flag v = i_flag i /\ v_data v = i_data i).
Proof. exact registry. Qed.
Print Assumptions C41_registry.

(* No sensible call is undefined; it aborts only when malloc fails or gives a block not
   aligned to 16, or when vectors of different shape are copied. *)
Theorem C41_safe :
  forall main os l peak s o, main <> 0 -> vhist main os l peak s ->
  sensible_vop main l o ->
  match vexec main o s with
  | Ok (p, _) => match o with VMalloc _ _ ans _ => ans = Some (p - nissa_vect_sizeof) /\ p mod 16 = 0 | _ => True end
  | Crash =>
      match o with
      | VMalloc _ _ ans _ => match ans with Some a => a mod 16 <> 0 | None => True end
      | VCopy a b => exists i j, lookup l a = Some i /\ lookup l b = Some j /\
                                 (i_nel i <> i_nel j \/ i_size i <> i_size j)
      | _ => False
      end
  | Undef => False
  end.
Proof. exact vops_safe. Qed.
Print Assumptions C41_safe.

Theorem C41_duplicate :
  forall main os l peak s v i ans junk p s', main <> 0 -> vhist main os l peak s ->
  In (v, i) l ->
  (match ans with
   | Some a => a <> 0 /\ a <> main /\ ~ known l (a + nissa_vect_sizeof)
   | None => True end) ->
  internal_vector_duplicate main v ans junk s = Ok (p, s') ->
  exists os' peak', vhist main os' (l ++ [(p, i)]) peak' s'.
Proof. exact duplicate_ok. Qed.
Print Assumptions C41_duplicate.

Theorem C41_flags :
  forall main os l peak s p f i, main <> 0 -> vhist main os l peak s ->
  In (p, i) l -> get_vect_flag p f s = Ok (Z.land (i_flag i) f).
Proof. exact flag_read. Qed.
Print Assumptions C41_flags.

(* three vectors, the middle one freed, then a copy *)
Definition ex_vops :=
  [VMalloc 2 8 (Some 1024) (repeat 7 16); VMalloc 1 4 (Some 2048) [1; 2; 3; 4];
   VMalloc 2 8 (Some 4096) (repeat 9 16); VFree (2048 + 112);
   VSetFlag (1024 + 112) 5; VCopy (4096 + 112) (1024 + 112)].
Example C41_meets : exists s,
  vhist 64 ex_vops [(1136, mkI 2 8 5 (repeat 7 16)); (4208, mkI 2 8 5 (repeat 7 16))] 36 s.
Proof.
  pose proof (vhist_nil 64) as H0.
  assert (S1 : sensible_vop 64 [] (VMalloc 2 8 (Some 1024) (repeat 7 16))) by (cbn; repeat split; lia).
  pose proof (vhist_cons _ _ _ _ _ _ _ _ H0 S1 eq_refl) as H1.
  change (1024 + nissa_vect_sizeof) with 1136 in H1.
  assert (S2 : sensible_vop 64 [(1136, mkI 2 8 0 (repeat 7 16))] (VMalloc 1 4 (Some 2048) [1; 2; 3; 4]))
    by (cbn; repeat split; lia).
  pose proof (vhist_cons _ _ _ _ _ _ _ _ H1 S2 eq_refl) as H2.
  change (2048 + nissa_vect_sizeof) with 2160 in H2.
  assert (S3 : sensible_vop 64 [(1136, mkI 2 8 0 (repeat 7 16)); (2160, mkI 1 4 0 [1; 2; 3; 4])]
     (VMalloc 2 8 (Some 4096) (repeat 9 16))) by (cbn; repeat split; lia).
  pose proof (vhist_cons _ _ _ _ _ _ _ _ H2 S3 eq_refl) as H3.
  change (4096 + nissa_vect_sizeof) with 4208 in H3.
  assert (S4 : sensible_vop 64 [(1136, mkI 2 8 0 (repeat 7 16)); (2160, mkI 1 4 0 [1; 2; 3; 4]);
     (4208, mkI 2 8 0 (repeat 9 16))] (VFree (2048 + 112))) by (cbn; auto).
  pose proof (vhist_cons _ _ _ _ _ _ _ _ H3 S4 eq_refl) as H4.
  assert (S5 : sensible_vop 64 [(1136, mkI 2 8 0 (repeat 7 16)); (4208, mkI 2 8 0 (repeat 9 16))]
     (VSetFlag (1024 + 112) 5)) by (cbn; split; [auto|lia]).
  pose proof (vhist_cons _ _ _ _ _ _ _ _ H4 S5 eq_refl) as H5.
  assert (S6 : sensible_vop 64 [(1136, mkI 2 8 5 (repeat 7 16)); (4208, mkI 2 8 0 (repeat 9 16))]
     (VCopy (4096 + 112) (1024 + 112))) by (cbn; auto).
  pose proof (vhist_cons _ _ _ _ _ _ _ _ H5 S6 eq_refl) as H6.
  eexists. exact H6.
Qed.

(* Freeing a null vector is meant to abort with a message, but only the address of the
   pointer is checked: the header is looked for before address 0. *)
Theorem C41_null_refuted :
  forall main, 0 < main ->
  internal_nissa_free 0 (initialize_main_vect main (vs_start main)) = Undef.
Proof.
  intros main H. unfold internal_nissa_free, get_vect, deref, initialize_main_vect, vs_start.
  cbn [vs_inited vs_mem]. rewrite mupd_ne by (pose proof hsz_val as E; unfold hsz in E; rewrite E; lia).
  replace (0 - nissa_vect_sizeof =? main) with false; [reflexivity|].
  symmetry. apply Z.eqb_neq. pose proof hsz_val as E; unfold hsz in E; rewrite E; lia.
Qed.
Print Assumptions C41_null_refuted.
