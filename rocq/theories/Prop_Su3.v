(** Property theorems C64-C69: 3x3 complex matrices, SU(3) and its algebra, exact real arithmetic.  Each theorem is closed by
    [exact]. *)
From Coq Require Import Reals Lra Lia List.
From Coquelicot Require Import Complex.
From Verif Require Import CplxModel CplxSpec CplxProofs MatModel MatSpec MatProofs MatRun MatProofs2 MatProofs3 MatProofs4 MatInverse MatAlg MatUnit MatUnit2
  MatAlgoModel MatSu2 MatCool MatCool2 MatCool3 MatQuad MatEnds MatMore ExpModel ExpSpec ExpMain ExpSmall.
Open Scope C_scope.

(** C64: the routines on matrices and colours.  [sets_mat o a v]: after [o] the matrix [a] is the value [v] of the memory before,
    and nothing else has changed.  For these the arguments may coincide in any way *)
Theorem C64_elementwise : forall (a b c : path) (r s : R),
  sets_mat (su3_put_to_zero a) a (fun m => (fun _ _ => RtoC 0)) /\
  sets_mat (su3_copy a b) a (fun m => mat m b) /\
  sets_mat (su3_summ a b c) a (fun m => madd (mat m b) (mat m c)) /\
  sets_mat (su3_subt a b c) a (fun m => msub (mat m b) (mat m c)) /\
  sets_mat (su3_summassign a b) a (fun m => madd (mat m a) (mat m b)) /\
  sets_mat (su3_subtassign a b) a (fun m => msub (mat m a) (mat m b)) /\
  sets_mat (su3_prod_double a b r) a (fun m => mscale r (mat m b)) /\
  sets_mat (su3_prodassign_double a r) a (fun m => mscale r (mat m a)) /\
  sets_mat (su3_prod_idouble a b r) a (fun m => mscale (Ci * r) (mat m b)) /\
  sets_mat (su3_prodassign_idouble a r) a (fun m => mscale (Ci * r) (mat m a)) /\
  sets_mat (su3_summ_the_prod_double a b r) a (fun m => madd (mat m a) (mscale r (mat m b))) /\
  sets_mat (su3_summ_the_prod_idouble a b r) a (fun m => madd (mat m a) (mscale (Ci * r) (mat m b))) /\
  sets_mat (su3_linear_comb a b r c s) a (fun m => madd (mscale r (mat m b)) (mscale s (mat m c))) /\
  sets_vec (color_copy a b) a (fun m => vec m b) /\
  sets_vec (color_summ a b c) a (fun m => (fun i => vec m b i + vec m c i)) /\
  sets_vec (color_subt a b c) a (fun m => (fun i => vec m b i - vec m c i)) /\
  sets_vec (color_prod_double a b r) a (fun m => (fun i => vec m b i * r)) /\
  sets_vec (color_summ_the_prod_double a b r) a (fun m => (fun i => vec m a i + vec m b i * r)) /\
  sets_vec (color_summ_the_prod_idouble a b r) a (fun m => (fun i => vec m a i + vec m b i * (Ci * r))) /\
  sets_vec (color_linear_comb a b r c s) a (fun m => (fun i => vec m b i * r + vec m c i * s)).
Proof. exact (fun a b c r s => (conj (su3_put_to_zero_ok a b c r s) (conj (su3_copy_ok a b c r s) (conj (su3_summ_ok a b c r s) (conj (su3_subt_ok a b c r s) (conj (su3_summassign_ok a b c r s) (conj (su3_subtassign_ok a b c r s) (conj (su3_prod_double_ok a b c r s) (conj (su3_prodassign_double_ok a b c r s) (conj (su3_prod_idouble_ok a b c r s) (conj (su3_prodassign_idouble_ok a b c r s) (conj (su3_summ_the_prod_double_ok a b c r s) (conj (su3_summ_the_prod_idouble_ok a b c r s) (conj (su3_linear_comb_ok a b c r s) (conj (color_copy_ok a b c r s) (conj (color_summ_ok a b c r s) (conj (color_subt_ok a b c r s) (conj (color_prod_double_ok a b c r s) (conj (color_summ_the_prod_double_ok a b c r s) (conj (color_summ_the_prod_idouble_ok a b c r s) (color_linear_comb_ok a b c r s))))))))))))))))))))). Qed.
Print Assumptions C64_elementwise.

(** for these the conditions say which arguments have to be different *)
Theorem C64_products : forall (a b c : path) (r s : R),
  (~ in_mat a c -> sets_mat (su3_summ_the_prod_complex a b c) a (fun m => madd (mat m a) (mscale (m c) (mat m b)))) /\
  (a <> b -> ~ in_mat a c -> sets_mat (unsafe_su3_prod_complex a b c) a (fun m => mscale (m c) (mat m b))) /\
  (a <> b -> ~ in_mat a c -> sets_mat (unsafe_su3_prod_complex_conj a b c) a (fun m => mscale (Cconj (m c)) (mat m b))) /\
  (a <> b -> sets_mat (unsafe_su3_hermitian a b) a (fun m => dag (mat m b))) /\
  (a <> b -> sets_mat (unsafe_su3_transpose a b) a (fun m => (fun i j => mat m b j i))) /\
  (a <> c -> sets_mat (unsafe_su3_summ_su3_dag a b c) a (fun m => madd (mat m b) (dag (mat m c)))) /\
  (a <> c -> sets_mat (su3_summassign_su3_dag a c) a (fun m => madd (mat m a) (dag (mat m c)))) /\
  (a <> c -> sets_mat (unsafe_su3_subt_su3_dag a b c) a (fun m => msub (mat m b) (dag (mat m c)))) /\
  (a <> c -> sets_mat (su3_subtassign_su3_dag a c) a (fun m => msub (mat m a) (dag (mat m c)))) /\
  (a <> b -> a <> c -> sets_mat (su3_summ_the_prod_su3 a b c) a (fun m => madd (mat m a) (mmul (mat m b) (mat m c)))) /\
  (a <> b -> a <> c -> sets_mat (su3_summ_the_prod_su3_dag a b c) a (fun m => madd (mat m a) (mmul (mat m b) (dag (mat m c))))) /\
  (a <> b -> a <> c -> sets_mat (su3_summ_the_dag_prod_su3 a b c) a (fun m => madd (mat m a) (mmul (dag (mat m b)) (mat m c)))) /\
  (a <> b -> a <> c -> sets_mat (su3_dag_summ_the_prod_su3 a b c) a (fun m => madd (mat m a) (mmul (dag (mat m b)) (mat m c)))) /\
  (a <> b -> a <> c -> sets_mat (su3_subt_the_prod_su3_dag a b c) a (fun m => msub (mat m a) (mmul (mat m b) (dag (mat m c))))) /\
  (a <> b -> a <> c -> sets_mat (unsafe_su3_prod_su3 a b c NCOL) a (fun m => mmul (mat m b) (mat m c))) /\
  (a <> b -> a <> c -> sets_mat (unsafe_su3_dag_prod_su3 a b c NCOL) a (fun m => mmul (dag (mat m b)) (mat m c))) /\
  (a <> b -> a <> c -> sets_mat (unsafe_su3_prod_su3_dag a b c NCOL) a (fun m => mmul (mat m b) (dag (mat m c)))) /\
  (a <> b -> a <> c -> sets_mat (unsafe_su3_dag_prod_su3_dag a b c NCOL) a (fun m => mmul (dag (mat m b)) (dag (mat m c)))) /\
  (~ in_vec a c -> sets_vec (color_summ_the_prod_complex a b c) a (fun m => (fun i => vec m a i + vec m b i * m c))) /\
  (~ in_vec a c -> sets_vec (color_subt_the_prod_complex a b c) a (fun m => (fun i => vec m a i - vec m b i * m c))) /\
  (~ in_vec a c -> sets_vec (safe_color_prod_complex a b c) a (fun m => (fun i => vec m b i * m c))) /\
  (a <> b -> ~ in_vec a c -> sets_vec (unsafe_color_prod_complex a b c) a (fun m => (fun i => vec m b i * m c))) /\
  (a <> c -> (forall i, a <> b@[i]) -> sets_vec (unsafe_su3_prod_color a b c) a (fun m => mvec (mat m b) (vec m c))) /\
  (a <> c -> (forall i, a <> b@[i]) -> sets_vec (unsafe_su3_dag_prod_color a b c) a (fun m => mvec (dag (mat m b)) (vec m c))).
Proof. exact (fun a b c r s => (conj (fun h0 => su3_summ_the_prod_complex_ok a b c r s h0) (conj (fun h0 h1 => unsafe_su3_prod_complex_ok a b c r s h0 h1) (conj (fun h0 h1 => unsafe_su3_prod_complex_conj_ok a b c r s h0 h1) (conj (fun h0 => unsafe_su3_hermitian_ok a b c r s h0) (conj (fun h0 => unsafe_su3_transpose_ok a b c r s h0) (conj (fun h0 => unsafe_su3_summ_su3_dag_ok a b c r s h0) (conj (fun h0 => su3_summassign_su3_dag_ok a b c r s h0) (conj (fun h0 => unsafe_su3_subt_su3_dag_ok a b c r s h0) (conj (fun h0 => su3_subtassign_su3_dag_ok a b c r s h0) (conj (fun h0 h1 => su3_summ_the_prod_su3_ok a b c r s h0 h1) (conj (fun h0 h1 => su3_summ_the_prod_su3_dag_ok a b c r s h0 h1) (conj (fun h0 h1 => su3_summ_the_dag_prod_su3_ok a b c r s h0 h1) (conj (fun h0 h1 => su3_dag_summ_the_prod_su3_ok a b c r s h0 h1) (conj (fun h0 h1 => su3_subt_the_prod_su3_dag_ok a b c r s h0 h1) (conj (fun h0 h1 => unsafe_su3_prod_su3_ok a b c h0 h1) (conj (fun h0 h1 => unsafe_su3_dag_prod_su3_ok a b c h0 h1) (conj (fun h0 h1 => unsafe_su3_prod_su3_dag_ok a b c h0 h1) (conj (fun h0 h1 => unsafe_su3_dag_prod_su3_dag_ok a b c h0 h1) (conj (fun h0 => color_summ_the_prod_complex_ok a b c r s h0) (conj (fun h0 => color_subt_the_prod_complex_ok a b c r s h0) (conj (fun h0 => safe_color_prod_complex_ok a b c r s h0) (conj (fun h0 h1 => unsafe_color_prod_complex_ok a b c r s h0 h1) (conj (fun h0 h1 => unsafe_su3_prod_color_ok a b c r s h0 h1) (fun h0 h1 => unsafe_su3_dag_prod_color_ok a b c r s h0 h1))))))))))))))))))))))))). Qed.
Print Assumptions C64_products.

(** the products named safe work on a local copy [d] (different from all arguments): the arguments may coincide in any way *)
Theorem C64_safe : forall (a b c d : path), d <> b -> d <> c ->
  sets_mat_loc (in_mat d) (safe_su3_hermitian a b d) a (fun m => dag (mat m b)) /\
  sets_mat_loc (in_mat d) (safe_su3_prod_su3 a b c d) a (fun m => mmul (mat m b) (mat m c)) /\
  sets_mat_loc (in_mat d) (safe_su3_dag_prod_su3 a b c d) a (fun m => mmul (dag (mat m b)) (mat m c)) /\
  sets_mat_loc (in_mat d) (safe_su3_prod_su3_dag a b c d) a (fun m => mmul (mat m b) (dag (mat m c))) /\
  sets_mat_loc (in_mat d) (safe_su3_dag_prod_su3_dag a b c d) a (fun m => mmul (dag (mat m b)) (dag (mat m c))) /\
  (~ in_mat d c -> sets_mat_loc (in_mat d) (safe_su3_prod_complex a b c d) a (fun m => mscale (m c) (mat m b))) /\
  (~ in_mat d c -> sets_mat_loc (in_mat d) (safe_su3_prod_complex_conj a b c d) a (fun m => mscale (Cconj (m c)) (mat m b))) /\
  ((forall i, d <> b@[i]) -> sets_vec_loc (in_vec d) (safe_su3_prod_color a b c d) a (fun m => mvec (mat m b) (vec m c))) /\
  ((forall i, d <> b@[i]) -> sets_vec_loc (in_vec d) (safe_su3_dag_prod_color a b c d) a (fun m => mvec (dag (mat m b)) (vec m c))).
Proof.
  exact (fun a b c d H1 H2 => conj (safe_su3_hermitian_ok a b d H1) (conj (safe_su3_prod_su3_ok a b c d H1 H2) (conj (safe_su3_dag_prod_su3_ok a b c d H1 H2)
   (conj (safe_su3_prod_su3_dag_ok a b c d H1 H2) (conj (safe_su3_dag_prod_su3_dag_ok a b c d H1 H2) (conj (fun N => safe_su3_prod_complex_ok a b c d H1 N)
   (conj (fun N => safe_su3_prod_complex_conj_ok a b c d H1 N) (conj (fun N => safe_su3_prod_color_ok a b c d H2 N) (fun N => safe_su3_dag_prod_color_ok a b c d H2 N))))))))).
Qed.
Print Assumptions C64_safe.

(** the remaining ones *)
Theorem C64_more : forall (a b c d : path) (r : R),
  sets_vec (color_put_to_zero a) a (fun m i => RtoC 0) /\
  (a <> c -> sets_vec (color_isumm a b c) a (fun m i => vec m b i + Ci * vec m c i)) /\
  (a <> c -> sets_vec (color_isubt a b c) a (fun m i => vec m b i - Ci * vec m c i)) /\
  sets_vec (color_summassign a b) a (fun m i => vec m a i + vec m b i) /\
  sets_vec (color_subtassign a b) a (fun m i => vec m a i - vec m b i) /\
  sets_vec (color_prod_idouble a b r) a (fun m i => vec m b i * (Ci * r)) /\
  (~ in_vec a c -> sets_vec (safe_color_prod_complex_conj a b c) a (fun m i => vec m b i * Cconj (m c))) /\
  (a <> b -> ~ in_vec a c -> sets_vec (unsafe_color_prod_complex_conj a b c) a (fun m i => vec m b i * Cconj (m c))) /\
  (d <> b -> sets_mat_loc (in_mat d) (safe_su3_transpose a b d) a (fun m i j => mat m b j i)) /\
  (d <> a -> d <> b -> sets_mat_loc (in_mat d) (su3_prodassign_su3 a b d) a (fun m => mmul (mat m a) (mat m b))) /\
  (a <> b -> sets_mat (unsafe_su3_hermitian_prod_double a b r) a (fun m => mscale (RtoC r) (dag (mat m b)))) /\
  sets_mat (safe_su3_hermitian_prod_double a b r) a (fun m => mscale (RtoC r) (dag (mat m b))) /\
  (a <> b -> sets_mat (su3_summ_the_hermitian_prod_double a b r) a (fun m => madd (mat m a) (mscale (RtoC r) (dag (mat m b))))) /\
  (a <> b -> sets_mat (su3_dag_summ_the_prod_double a b r) a (fun m => madd (mat m a) (mscale (RtoC r) (dag (mat m b))))).
Proof.
  exact (fun a b c d r => conj (color_put_to_zero_ok a) (conj (color_isumm_ok a b c) (conj (color_isubt_ok a b c) (conj (color_summassign_ok a b)
    (conj (color_subtassign_ok a b) (conj (color_prod_idouble_ok a b r) (conj (safe_color_prod_complex_conj_ok a b c) (conj (unsafe_color_prod_complex_conj_ok a b c)
    (conj (safe_su3_transpose_ok a b d) (conj (su3_prodassign_su3_ok a b d) (conj (unsafe_su3_hermitian_prod_double_ok a b r)
    (conj (safe_su3_hermitian_prod_double_ok a b r) (conj (su3_summ_the_hermitian_prod_double_ok a b r) (su3_dag_summ_the_prod_double_ok a b r)))))))))))))).
Qed.
Print Assumptions C64_more.

(** identity and diagonal matrices; trace, determinant, norms and scalar products, and the products limited to some rows *)
Theorem C64_diagonal : forall (a b c : path) (r : R),
  sets_mat (su3_put_to_id a) a (fun _ => mid) /\
  sets_mat (su3_put_to_diag_double a r) a (fun _ => mscale (RtoC r) mid) /\
  sets_mat (su3_summ_real a b r) a (fun m => madd (mat m b) (mscale (RtoC r) mid)) /\
  (~ in_mat a c -> sets_mat (su3_put_to_diag_complex a c) a (fun m => mscale (m c) mid)) /\
  (~ in_mat a c -> sets_mat (su3_subt_complex a b c) a (fun m => msub (mat m b) (mscale (m c) mid))) /\
  ((forall i, c <> a@[i]) -> sets_mat (su3_put_to_diag_color a c) a (fun m i j => if Nat.eqb i j then m c@[i] else RtoC 0)).
Proof.
  exact (fun a b c r => conj (su3_put_to_id_ok a) (conj (su3_put_to_diag_double_ok a r) (conj (su3_summ_real_ok a b r)
    (conj (su3_put_to_diag_complex_ok a c) (conj (su3_subt_complex_ok a b c) (su3_put_to_diag_color_ok a c)))))).
Qed.
Print Assumptions C64_diagonal.
Theorem C64_numbers : forall (t a b c : path) (m : mem),
  su3_real_trace m b = fst (trace (mat m b)) /\ su3_norm2 m a = norm2 (mat m a) /\ su3_real_det m a = fst (det (mat m a)) /\
  su3_get_non_unitariness m a = sqrt (norm2 (msub (mmul (mat m a) (dag (mat m a))) mid)) /\
  real_part_of_trace_su3_prod_su3_dag m a b = fst (trace (mmul (mat m a) (dag (mat m b)))) /\
  RtoC (color_norm2 m c) = csum 3 (fun k => Cconj (m c@[k]) * m c@[k]) /\
  (~ in_mat b t -> sets (su3_trace t b) t (fun m => trace (mat m b))) /\
  (~ in_mat b t -> sets (su3_summ_the_trace t b) t (fun m => m t + trace (mat m b))) /\
  (~ in_mat a t -> ~ in_mat b t -> sets (trace_su3_prod_su3 t a b) t (fun m => trace (mmul (mat m a) (mat m b)))) /\
  (~ in_vec b t -> ~ in_vec c t -> sets (color_scalar_prod t b c) t (fun m => csum 3 (fun k => Cconj (m b@[k]) * m c@[k]))) /\
  (c <> t -> ~ in_mat b t -> ~ in_mat b c -> sets_loc (eq c) (su3_det t b c) t (fun m => det (mat m b))).
Proof.
  exact (fun t a b c m => conj (su3_real_trace_ok m b) (conj (su3_norm2_ok m a) (conj (su3_real_det_ok m a) (conj (non_unitariness_ok m a)
    (conj (real_part_of_trace_su3_prod_su3_dag_ok m a b) (conj (color_norm2_ok m c) (conj (su3_trace_ok t b) (conj (su3_summ_the_trace_ok t b)
    (conj (trace_su3_prod_su3_ok t a b) (conj (color_scalar_prod_ok t b c) (su3_det_ok t b c))))))))))).
Qed.
Print Assumptions C64_numbers.
Theorem C64_rows : forall (a b c : path) nr, (nr <= 3)%nat -> a <> b -> a <> c ->
  sets_rows nr (unsafe_su3_prod_su3 a b c nr) a (fun m => mmul (mat m b) (mat m c)) /\
  sets_rows nr (unsafe_su3_prod_su3_dag a b c nr) a (fun m => mmul (mat m b) (dag (mat m c))) /\
  sets_rows nr (unsafe_su3_dag_prod_su3_dag a b c nr) a (fun m => mmul (dag (mat m b)) (dag (mat m c))).
Proof.
  exact (fun a b c nr Hn H1 H2 => conj (unsafe_su3_prod_su3_rows a b c nr Hn H1 H2) (conj (unsafe_su3_prod_su3_dag_rows a b c nr Hn H1 H2)
    (unsafe_su3_dag_prod_su3_dag_rows a b c nr Hn H1 H2))).
Qed.
Print Assumptions C64_rows.
(** this is false of the fourth product: with two rows asked, also its internal sum is on two terms *)
Theorem C64_rows_refuted : exists m, mat (unsafe_su3_dag_prod_su3 e0 e1 e1 2 m) e0 0%nat 0%nat <> mmul (dag (mat m e1)) (mat m e1) 0%nat 0%nat.
Proof. exact dag_prod_rows_wrong. Qed.
Print Assumptions C64_rows_refuted.
(** a case: the conditions on the names are met by three objects *)
Example names_case : e0 <> e1 /\ e0 <> e2 /\ ~ in_mat e0 e1 /\ ~ in_vec e0 e2 /\ (forall i, e0 <> e1@[i]) /\ (2 <= 3)%nat.
Proof.
  repeat split; try discriminate; try lia.
  - intros (i & j & _ & _ & E). discriminate.
  - intros (i & _ & E). discriminate.
Qed.

(** C65: projection on SU(3) by orthonormalisation, also in place.  If the first two rows are linearly independent, the result is
    special unitary, the first row is only rescaled, the second is the given one minus its component along the first, rescaled *)
Theorem C65_orthonormalise : forall o i sp f m, sp <> f -> ~ in_mat o sp -> ~ in_mat o f -> ~ in_mat i sp -> ~ in_mat i f ->
  (exists k, (k < 3)%nat /\ mat m i 0%nat k <> RtoC 0) -> (forall c, exists k, (k < 3)%nat /\ mat m i 1%nat k <> c * mat m i 0%nat k) ->
  let m' := su3_unitarize_orthonormalizing o i sp f m in
  special_unitary (mat m' o) /\
  (exists a : R, (0 < a)%R /\ forall k, (k < 3)%nat -> mat m' o 0%nat k = RtoC a * mat m i 0%nat k) /\
  (exists (b : R) (c : C), (0 < b)%R /\ forall k, (k < 3)%nat -> mat m' o 1%nat k = RtoC b * (mat m i 1%nat k - c * mat m i 0%nat k)) /\
  forall p, ~ in_mat o p -> p <> sp -> p <> f -> m' p = m p.
Proof. exact orthonormalise. Qed.
Print Assumptions C65_orthonormalise.
(** matrices of SU(3) are not changed *)
Theorem C65_fixed : forall o i sp f m, sp <> f -> ~ in_mat o sp -> ~ in_mat o f -> ~ in_mat i sp -> ~ in_mat i f ->
  special_unitary (mat m i) -> meq (mat (su3_unitarize_orthonormalizing o i sp f m) o) (mat m i).
Proof. exact orthonormalise_fixed. Qed.
Print Assumptions C65_fixed.
(** the third row of a matrix of SU(3) is recovered from the others *)
Theorem C65_third_row : forall o m x, special_unitary x -> (forall i j, (i < 2)%nat -> (j < 3)%nat -> mat m o i j = x i j) ->
  meq (mat (su3_build_third_row o m) o) x.
Proof. exact third_row_recovers. Qed.
Print Assumptions C65_third_row.
(** a case: twice the identity *)
Example orthonormalise_case : let m := fun p => match p with (j :: i :: 0 :: nil)%nat => if Nat.eqb i j then RtoC 2 else RtoC 0 | _ => RtoC 0 end in
  e1 <> e2 /\ ~ in_mat e0 e1 /\ ~ in_mat e0 e2 /\
  (exists k, (k < 3)%nat /\ mat m e0 0%nat k <> RtoC 0) /\ (forall c, exists k, (k < 3)%nat /\ mat m e0 1%nat k <> c * mat m e0 0%nat k).
Proof.
  cbv zeta. split; [discriminate|]. split; [intros (i & j & _ & _ & E); discriminate|]. split; [intros (i & j & _ & _ & E); discriminate|]. split.
  - exists 0%nat. split; [lia|]. cbn. intros E. apply (f_equal fst) in E. cbn in E. lra.
  - intros c. exists 1%nat. split; [lia|]. cbn. intros E. apply (f_equal fst) in E. cbn in E. lra.
Qed.

(** C66: the explicit inverse is the inverse on both sides, for all matrices with non zero determinant; [dt], [rc], [a] are local *)
Theorem C66_inverse : forall inv u dt rc a m, inv <> u -> a <> dt -> a <> rc -> dt <> rc ->
  ~ in_mat u a -> ~ in_mat u dt -> ~ in_mat u rc -> ~ in_mat inv a -> ~ in_mat inv dt -> ~ in_mat inv rc ->
  det (mat m u) <> RtoC 0 ->
  let m' := unsafe_su3_explicit_inverse inv u dt rc a m in
  meq (mmul (mat m' inv) (mat m u)) mid /\ meq (mmul (mat m u) (mat m' inv)) mid /\
  (forall p, ~ in_mat inv p -> p <> a -> p <> dt -> p <> rc -> m' p = m p).
Proof. exact inverse_ends. Qed.
Print Assumptions C66_inverse.
(** the safe version works on the local copy [t]: the result may go on the matrix itself *)
Theorem C66_inverse_safe : forall inv u t dt rc a m, t <> u -> a <> dt -> a <> rc -> dt <> rc ->
  ~ in_mat u a -> ~ in_mat u dt -> ~ in_mat u rc -> ~ in_mat t a -> ~ in_mat t dt -> ~ in_mat t rc ->
  det (mat m u) <> RtoC 0 ->
  let m' := safe_su3_explicit_inverse inv u t dt rc a m in
  meq (mmul (mat m' inv) (mat m u)) mid /\ meq (mmul (mat m u) (mat m' inv)) mid /\
  (forall p, ~ in_mat inv p -> ~ in_mat t p -> p <> a -> p <> dt -> p <> rc -> m' p = m p).
Proof. exact safe_inverse_ends. Qed.
Print Assumptions C66_inverse_safe.
Example inverse_case : det (mscale Ci mid) <> RtoC 0.
Proof. unfold det, mscale, mid. cbn [Nat.eqb]. intros E. apply (f_equal snd) in E. cbn in E. lra. Qed.

(** C67: projections on the algebra: (traceless) hermitian and anti-hermitian part, also in place *)
Theorem C67_parts : forall a b,
  sets_mat (su3_anti_hermitian_part a b) a (fun m => anti_herm_part (mat m b)) /\
  sets_mat (unsafe_su3_traceless_anti_hermitian_part a b) a (fun m => traceless_part (anti_herm_part (mat m b))) /\
  sets_mat (unsafe_su3_traceless_hermitian_part a b) a (fun m => traceless_part (herm_part (mat m b))).
Proof. exact (fun a b => conj (su3_anti_hermitian_part_ok a b) (conj (unsafe_su3_traceless_anti_hermitian_part_ok a b) (unsafe_su3_traceless_hermitian_part_ok a b))). Qed.
Print Assumptions C67_parts.
Theorem C67_algebra : forall x,
  (anti_hermitian (traceless_part (anti_herm_part x)) /\ trace (traceless_part (anti_herm_part x)) = RtoC 0) /\
  (hermitian (traceless_part (herm_part x)) /\ trace (traceless_part (herm_part x)) = RtoC 0) /\
  (anti_hermitian x -> trace x = RtoC 0 -> meq (traceless_part (anti_herm_part x)) x).
Proof.
  exact (fun x => conj (conj (traceless_anti _ (anti_part_anti x)) (traceless_trace _)) (conj (conj (traceless_herm _ (herm_part_herm x)) (traceless_trace _))
    (traceless_anti_fixed x))).
Qed.
Print Assumptions C67_algebra.

(** C68: cooling never decreases Re Tr(U M^dag), overrelaxation keeps it, and both leave U in SU(3); the local variables are
    [prod], [md], [row].  No condition is put on M or on the staple *)
Theorem C68_cooling : forall U M prod md row m, U <> prod -> prod <> M -> su2_apart U md row -> su2_apart prod md row ->
  let m' := maximal_trace_iteration U M prod md row m in
  (special_unitary (mat m U) -> special_unitary (mat m' U)) /\
  (fst (trace (mmul (mat m U) (dag (mat m M)))) <= fst (trace (mmul (mat m' U) (dag (mat m M)))))%R /\
  maximal_trace_iteration_ret m' prod = fst (trace (mmul (mat m' U) (dag (mat m M)))) /\
  (forall p, ~ in_mat U p -> ~ loc4 prod md row p -> m' p = m p).
Proof. exact iteration_ok. Qed.
Print Assumptions C68_cooling.
Theorem C68_overrelaxation : forall out inp S prod md row n m, out <> prod -> inp <> prod -> prod <> S -> su2_apart out md row -> su2_apart prod md row ->
  let m' := su3_find_overrelaxed out inp S n prod md row m in
  (special_unitary (mat m inp) -> special_unitary (mat m' out)) /\
  fst (trace (mmul (mat m' out) (dag (mat m S)))) = fst (trace (mmul (mat m inp) (dag (mat m S)))) /\
  (forall p, ~ in_mat out p -> ~ loc4 prod md row p -> m' p = m p).
Proof. exact overrelaxed_ok. Qed.
Print Assumptions C68_overrelaxation.
(** projection by maximisation of the trace: if it returns, the result is in SU(3) and has a trace with M not below that of the
    identity, whatever the intermediate clean-up does; it returns or stops with an error within niter_max+1 passes *)
Theorem C68_maximal_trace : forall fuel refix prec niter out M U prod md row m m',
  U <> prod -> prod <> M -> U <> M -> su2_apart U md row -> su2_apart prod md row ->
  su3_unitarize_maximal_trace_projecting fuel refix prec niter out M U prod md row m = Ret m' ->
  special_unitary (mat m' out) /\
  (fst (trace (dag (mat m M))) <= fst (trace (mmul (mat m' out) (dag (mat m M)))))%R /\
  (forall p, ~ in_mat out p -> ~ in_mat U p -> ~ loc4 prod md row p -> m' p = m p).
Proof. exact maximal_trace_ok. Qed.
Print Assumptions C68_maximal_trace.
Theorem C68_maximal_trace_ends : forall fuel refix prec niter out M U prod md row m, (niter < fuel)%nat ->
  su3_unitarize_maximal_trace_projecting fuel refix prec niter out M U prod md row m <> Timeout.
Proof. exact maximal_trace_ends. Qed.
Print Assumptions C68_maximal_trace_ends.
(** the version recomputing the product at each step gives the same link *)
Theorem C68_slow : forall U M prod md row, U <> prod -> prod <> M -> U <> M -> su2_apart U md row -> su2_apart prod md row -> su2_apart M md row ->
  forall m, meq (mat (maximal_trace_iteration_slow U M prod md row m) U) (mat (maximal_trace_iteration U M prod md row m) U).
Proof. exact slow_fast. Qed.
Print Assumptions C68_slow.
Example cooling_case : e0 <> e1 /\ e1 <> e2 /\ su2_apart e0 (3%nat :: nil) (4%nat :: nil) /\ su2_apart e1 (3%nat :: nil) (4%nat :: nil) /\ special_unitary mid.
Proof. unfold su2_apart, e0, e1, e2. split; [discriminate|]. split; [discriminate|]. split; [repeat split; discriminate|]. split; [repeat split; discriminate|apply su_1]. Qed.

(** C69: exponential.  For Q hermitian and traceless, outside the regions in which the code uses truncated series, the result is the
    sum of the exponential series of iQ and is in SU(3); out may be Q.  [iQ], [iQ2], [f] are local *)
Theorem C69_exponential : forall out Q iQ iQ2 f m,
  out <> iQ -> out <> iQ2 -> iQ <> iQ2 -> Q <> iQ -> Q <> iQ2 -> (forall k, ~ in_mat out f@[k] /\ ~ in_mat iQ f@[k] /\ ~ in_mat iQ2 f@[k]) ->
  hermitian (mat m Q) -> trace (mat m Q) = RtoC 0 -> exact_zone (mat m Q) ->
  let m' := safe_hermitian_exact_i_exponentiate out Q iQ iQ2 f m in
  is_mexp (mscale Ci (mat m Q)) (mat m' out) /\ special_unitary (mat m' out) /\
  forall p, ~ in_mat out p -> ~ in_mat iQ p -> ~ in_mat iQ2 p -> (forall k, p <> f@[k]) -> m' p = m p.
Proof. exact exponentiate_ok. Qed.
Print Assumptions C69_exponential.
Theorem C69_anti_hermitian : forall out inp Q iQ iQ2 f m,
  out <> iQ -> out <> iQ2 -> iQ <> iQ2 -> Q <> iQ -> Q <> iQ2 -> (forall k, ~ in_mat out f@[k] /\ ~ in_mat iQ f@[k] /\ ~ in_mat iQ2 f@[k]) ->
  anti_hermitian (mat m inp) -> trace (mat m inp) = RtoC 0 -> exact_zone (mscale (- Ci) (mat m inp)) ->
  let m' := safe_anti_hermitian_exact_exponentiate out inp Q iQ iQ2 f m in
  is_mexp (mat m inp) (mat m' out) /\ special_unitary (mat m' out) /\
  forall p, ~ in_mat out p -> ~ in_mat Q p -> ~ in_mat iQ p -> ~ in_mat iQ2 p -> (forall k, p <> f@[k]) -> m' p = m p.
Proof. exact anti_exponentiate_ok. Qed.
Print Assumptions C69_anti_hermitian.
(** inside these regions: zero gives exactly the identity, small matrices are within 10^-12, and the series used for sin(w)/w is accurate *)
Theorem C69_zero : forall out Q iQ iQ2 f m,
  out <> iQ -> out <> iQ2 -> iQ <> iQ2 -> Q <> iQ -> Q <> iQ2 -> (forall k, ~ in_mat out f@[k] /\ ~ in_mat iQ f@[k] /\ ~ in_mat iQ2 f@[k]) ->
  meq (mat m Q) (fun _ _ => RtoC 0) -> meq (mat (safe_hermitian_exact_i_exponentiate out Q iQ iQ2 f m) out) mid.
Proof. exact exponentiate_0. Qed.
Print Assumptions C69_zero.
(** small matrices (half the sum of the squared eigenvalues below 0.004): each entry is within 10^-12 of all partial sums of the exponential
    series from the ninth on *)
Theorem C69_small : forall out Q iQ iQ2 f m,
  out <> iQ -> out <> iQ2 -> iQ <> iQ2 -> Q <> iQ -> Q <> iQ2 -> (forall k, ~ in_mat out f@[k] /\ ~ in_mat iQ f@[k] /\ ~ in_mat iQ2 f@[k]) ->
  hermitian (mat m Q) -> trace (mat m Q) = RtoC 0 -> (exp_c1 (mat m Q) < 4e-3)%R ->
  let m' := safe_hermitian_exact_i_exponentiate out Q iQ iQ2 f m in
  (forall n i j, (8 <= n)%nat -> (i < 3)%nat -> (j < 3)%nat ->
     (Rabs (fst (mexp_sum (mscale Ci (mat m Q)) n i j) - fst (mat m' out i j)) <= 1e-12)%R /\
     (Rabs (snd (mexp_sum (mscale Ci (mat m Q)) n i j) - snd (mat m' out i j)) <= 1e-12)%R) /\
  forall p, ~ in_mat out p -> ~ in_mat iQ p -> ~ in_mat iQ2 p -> (forall k, p <> f@[k]) -> m' p = m p.
Proof. exact exponentiate_small. Qed.
Print Assumptions C69_small.
Theorem C69_sinc : forall w, (Rabs (w * exp_xi0 w - sin w) <= Rabs w ^ 9 / 362880)%R.
Proof. exact xi0_error. Qed.
Print Assumptions C69_sinc.
(** a case: diag(1,-1,0) *)
Definition diag_case : cmat := fun i j => if Nat.eqb i j then match i with 0%nat => RtoC 1 | 1%nat => RtoC (-1) | _ => RtoC 0 end else RtoC 0.
Example exponential_case : hermitian diag_case /\ trace diag_case = RtoC 0 /\ exact_zone diag_case.
Proof.
  split; [|split].
  - intros i j Hi Hj. idx i; idx j; ceq.
  - ceq.
  - assert (E1 : exp_c1 diag_case = 1%R) by (unfold exp_c1, trace, mmul, diag_case; cbn; field).
    assert (E0 : exp_c0 diag_case = 0%R) by (unfold exp_c0, det, diag_case; cbn; field).
    assert (P : (0 < exp_c0_max diag_case)%R) by (unfold exp_c0_max, Rpower; pose proof (exp_pos (1.5 * ln (exp_c1 diag_case / 3))); lra).
    unfold exact_zone. rewrite E0, E1, Rabs_R0. replace (0 / exp_c0_max diag_case)%R with 0%R by (field; lra).
    replace ((exp_c0_max diag_case - 0) / exp_c0_max diag_case)%R with 1%R by (field; lra).
    rewrite acos_0. replace (PI / 2 / 3)%R with (PI / 6)%R by field. rewrite sin_PI6, sqrt_1. repeat split; lra.
Qed.

(** C70: the order of the four directions in files: direction mu of nissa is direction mu-1 (mod 4) of ILDG; the two conversions
    are inverse of each other, in place *)
Theorem C70_order : forall out inp buff m, buff <> inp -> buff <> out ->
  (forall mu, (mu < 4)%nat -> meq (mat (quad_su3_nissa_to_ildg_reord out inp buff m) out@[Nat.modulo (mu + 3) 4]) (mat m inp@[mu])) /\
  (forall mu, (mu < 4)%nat -> meq (mat (quad_su3_ildg_to_nissa_reord out inp buff m) out@[Nat.modulo (mu + 1) 4]) (mat m inp@[mu])) /\
  (forall p, ~ in_quad out p -> ~ in_quad buff p -> quad_su3_nissa_to_ildg_reord out inp buff m p = m p /\ quad_su3_ildg_to_nissa_reord out inp buff m p = m p).
Proof.
  exact (fun out inp buff m H1 H2 => conj (proj1 (nissa_to_ildg_ok out inp buff m H1 H2)) (conj (proj1 (ildg_to_nissa_ok out inp buff m H1 H2))
   (fun p P1 P2 => conj (proj2 (nissa_to_ildg_ok out inp buff m H1 H2) p P1 P2) (proj2 (ildg_to_nissa_ok out inp buff m H1 H2) p P1 P2)))).
Qed.
Print Assumptions C70_order.
Theorem C70_inverse : forall a buff m, buff <> a ->
  (forall mu, (mu < 4)%nat -> meq (mat (quad_su3_ildg_to_nissa_reord a a buff (quad_su3_nissa_to_ildg_reord a a buff m)) a@[mu]) (mat m a@[mu])) /\
  (forall mu, (mu < 4)%nat -> meq (mat (quad_su3_nissa_to_ildg_reord a a buff (quad_su3_ildg_to_nissa_reord a a buff m)) a@[mu]) (mat m a@[mu])).
Proof. exact reord_inverse. Qed.
Print Assumptions C70_inverse.
Example order_case : e1 <> e0. Proof. discriminate. Qed.
