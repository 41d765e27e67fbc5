(** Property theorems C72-C73: Dirac matrices and spin matrices, exact real arithmetic.  [junk] is what a local dirac_matr holds before it is
    written.  Each theorem is closed by [exact]. *)
From Coq Require Import Reals Lra Lia List.
From Coquelicot Require Import Complex.
From Verif Require Import CplxModel CplxSpec MatSpec DiracModel DiracSpec DiracProofs SpinModel SpinSpec SpinProofs SpinProofs2 SpinProofs3 SpinProofs4.
Import ListNotations.
Open Scope C_scope.

(** C72: the operations on dirac_matr are those on the 4x4 matrices that they stand for; sums of matrices with different structure, and
    the hermitian conjugate of a matrix with two entries in a column, stop the program *)
Theorem C72_operations : forall junk a b (c : C) (r : R), valid a ->
  deq (den (dirac_prod junk a b)) (dmul (den a) (den b)) /\
  deq (den (dirac_prod_complex junk a c)) (dscale c (den a)) /\
  deq (den (dirac_prod_double junk a r)) (dscale r (den a)) /\
  deq (den (dirac_prod_idouble junk a r)) (dscale (Ci * r) (den a)) /\
  ((same_pos a b -> exists s, dirac_summ junk a b = Some s /\ deq (den s) (dadd (den a) (den b)) /\ same_pos s a) /\ (~ same_pos a b -> dirac_summ junk a b = None)) /\
  ((same_pos a b -> exists s, dirac_subt junk a b = Some s /\ deq (den s) (dsub (den a) (den b)) /\ same_pos s a) /\ (~ same_pos a b -> dirac_subt junk a b = None)) /\
  ((injective_pos a -> exists s, dirac_herm junk a = Some s /\ deq (den s) (ddag (den a)) /\ valid s /\ injective_pos s) /\ (~ injective_pos a -> dirac_herm junk a = None)).
Proof.
  exact (fun junk a b c r V => conj (den_prod junk a b V) (conj (den_prod_complex junk a c) (conj (den_prod_double junk a r) (conj (den_prod_idouble junk a r)
    (conj (summ_ok junk a b) (conj (subt_ok junk a b) (herm_ok junk a V))))))).
Qed.
Print Assumptions C72_operations.

(** C72: base_gamma[0..18].  Hermiticity, the Clifford algebra (1,2,3 and 4 are the four directions, 5 is gamma5), and the products that the others are *)
Theorem C72_base : forall junk, let G := fun i => den (base_gamma junk i) in
  (forall i, (i < 19)%nat -> valid (base_gamma junk i) /\ injective_pos (base_gamma junk i)) /\
  deq (G 0%nat) did /\
  (forall a, (a <= 5)%nat -> deq (ddag (G a)) (G a)) /\
  (forall a b, (1 <= a <= 5)%nat -> (1 <= b <= 5)%nat -> deq (dadd (dmul (G a) (G b)) (dmul (G b) (G a))) (dscale (RtoC (if Nat.eqb a b then 2 else 0)) did)) /\
  deq (G 5%nat) (dmul (G 4%nat) (dmul (G 1%nat) (dmul (G 2%nat) (G 3%nat)))) /\
  (forall a, (1 <= a <= 4)%nat -> deq (G (5 + a)%nat) (dmul (G a) (G 5%nat))) /\
  (forall a, (1 <= a <= 3)%nat -> deq (G (9 + a)%nat) (dmul (G 4%nat) (G a))) /\
  (deq (G 13%nat) (dmul (G 2%nat) (G 3%nat)) /\ deq (G 14%nat) (dmul (G 3%nat) (G 1%nat)) /\ deq (G 15%nat) (dmul (G 1%nat) (G 2%nat))) /\
  (forall a, (1 <= a <= 3)%nat -> deq (G (15 + a)%nat) (dmul (G 4%nat) (dmul (G a) (G 5%nat)))).
Proof.
  exact (fun junk => conj (gamma_valid junk) (conj (gamma_id junk) (conj (gamma_herm junk) (conj (clifford junk) (conj (products junk)
    (conj (axial junk) (conj (tensor junk) (conj (tensor2 junk) (third junk))))))))).
Qed.
Print Assumptions C72_base.
(** the first sixteen are orthogonal, and every matrix is the combination of them with the coefficients tr(G^dag x)/4 *)
Theorem C72_basis : forall junk, let G := fun i => den (base_gamma junk i) in
  (forall a b, (a < 16)%nat -> (b < 16)%nat -> dtrace (dmul (ddag (G a)) (G b)) = RtoC (if Nat.eqb a b then 4 else 0)) /\
  (forall x, deq (fun i j => csum 16 (fun a => dtrace (dmul (ddag (G a)) x) * G a i j)) (dscale (RtoC 4) x)).
Proof. exact (fun junk => conj (orthogonal junk) (complete junk)). Qed.
Print Assumptions C72_basis.
(** the rotators are (1 +- i gamma5)/sqrt(2), one the inverse of the other, with square i gamma5; the sigma_munu are the products of the two gammas *)
Theorem C72_rotators : forall junk, let G := fun i => den (base_gamma junk i) in
  deq (den Pplus) (dscale (RtoC (1 / sqrt 2)) (dadd did (dscale Ci (G 5%nat)))) /\
  deq (den Pminus) (dscale (RtoC (1 / sqrt 2)) (dsub did (dscale Ci (G 5%nat)))) /\
  deq (dmul (den Pplus) (den Pplus)) (dscale Ci (G 5%nat)) /\
  (deq (dmul (den Pplus) (den Pminus)) did /\ deq (dmul (den Pminus) (den Pplus)) did) /\
  (forall imunu, (imunu < 6)%nat -> deq (den (smunu junk imunu))
     (dmul (G (iGammaOfMu (nth imunu [0; 0; 0; 1; 1; 2] 0)%nat)) (G (iGammaOfMu (nth imunu [1; 2; 3; 2; 3; 3] 0)%nat)))).
Proof. exact (fun junk => conj (Pplus_val junk) (conj (Pminus_val junk) (conj (P_square junk) (conj P_inverse (smunu_val junk))))). Qed.
Print Assumptions C72_rotators.
(** opg[mu]=1+gamma_mu and omg[mu]=1-gamma_mu after the initialisation *)
Theorem C72_projectors : forall opg omg bg o : path,
  opg <> omg -> (forall mu, bg <> opg@[mu]) -> (forall mu, bg <> omg@[mu]) ->
  (forall mu i j, o <> opg@[mu]@[i]@[j]) -> (forall mu i j, o <> omg@[mu]@[i]@[j]) -> (forall i r, o <> bg@[i]@[r]) ->
  let junk := DM (fun _ => O) (fun _ => RtoC 0) in
  forall m mu, (forall i r, (i < 19)%nat -> (r < 4)%nat -> m bg@[i]@[r] = entr (base_gamma junk i) r) -> (mu < 4)%nat ->
  deq (ss (init_opg_omg opg omg bg o m) opg@[mu]) (dadd did (den (base_gamma junk (iGammaOfMu mu)))) /\
  deq (ss (init_opg_omg opg omg bg o m) omg@[mu]) (dsub did (den (base_gamma junk (iGammaOfMu mu)))).
Proof. exact init_opg_omg_ok. Qed.
Print Assumptions C72_projectors.

(** C73: the routines on spins and spin matrices.  For these the arguments may coincide in any way *)
Theorem C73_elementwise : forall (a b c : path) (r : R),
  sets_sv (spin_put_to_zero a) a (fun m _ => RtoC 0) /\
  sets_sv (spin_copy a b) a (fun m => sv m b) /\
  sets_sv (spin_conj a b) a (fun m i => Cconj (sv m b i)) /\
  sets_sv (spin_summ a b c) a (fun m i => sv m b i + sv m c i) /\
  sets_sv (spin_subt a b c) a (fun m i => sv m b i - sv m c i) /\
  sets_sv (spin_prod_double a b r) a (fun m i => r * sv m b i) /\
  sets_ss (spinspin_put_to_zero a) a (fun m _ _ => RtoC 0) /\
  sets_ss (spinspin_copy a b) a (fun m => ss m b) /\
  sets_ss (spinspin_summ a b c) a (fun m => dadd (ss m b) (ss m c)) /\
  sets_ss (spinspin_subt a b c) a (fun m => dsub (ss m b) (ss m c)) /\
  sets_ss (spinspin_prod_double a b r) a (fun m => dscale r (ss m b)) /\
  sets_ss (spinspin_prod_idouble a b r) a (fun m => dscale (Ci * r) (ss m b)) /\
  sets_ss (spinspin_summ_the_prod_double a b r) a (fun m => dadd (ss m a) (dscale r (ss m b))).
Proof.
  exact (fun a b c r => conj (spin_put_to_zero_ok a) (conj (spin_copy_ok a b) (conj (spin_conj_ok a b) (conj (spin_summ_ok a b c) (conj (spin_subt_ok a b c)
    (conj (spin_prod_double_ok a b r) (conj (spinspin_put_to_zero_ok a) (conj (spinspin_copy_ok a b) (conj (spinspin_summ_ok a b c) (conj (spinspin_subt_ok a b c)
    (conj (spinspin_prod_double_ok a b r) (conj (spinspin_prod_idouble_ok a b r) (spinspin_summ_the_prod_double_ok a b r))))))))))))).
Qed.
Print Assumptions C73_elementwise.
(** for these the conditions say which arguments have to be different; [d] and [p] are the entries and the positions of the Dirac matrix *)
Theorem C73_products : forall (a b c d : path) (p : nat -> nat) (r : R), perm4 p ->
  (a <> b -> sets_ss (unsafe_spinspin_hermitian a b) a (fun m => ddag (ss m b))) /\
  ((forall i, b <> a@[i]) -> (forall i, c <> a@[i]) -> sets_ss (spin_direct_prod a b c) a (fun m i j => sv m b i * sv m c j)) /\
  (a <> b -> a <> c -> sets_ss (unsafe_spinspin_prod_spinspin a b c) a (fun m => dmul (ss m b) (ss m c))) /\
  (a <> b -> a <> c -> sets_ss (unsafe_spinspin_prod_spinspin_dag a b c) a (fun m => dmul (ss m b) (ddag (ss m c)))) /\
  (a <> b -> a <> c -> sets_ss (spinspin_summ_the_spinspin_prod a b c) a (fun m => dadd (ss m a) (dmul (ss m b) (ss m c)))) /\
  (a <> b -> a <> c -> sets_ss (spinspin_subt_the_spinspin_prod a b c) a (fun m => dsub (ss m a) (dmul (ss m b) (ss m c)))) /\
  ((forall i, a <> b@[i]) -> a <> c -> sets_sv (unsafe_spinspin_prod_spin a b c) a (fun m => dvec (ss m b) (sv m c))) /\
  ((forall i, a <> c@[i]) -> a <> b -> sets_sv (unsafe_spin_prod_spinspin a b c) a (fun m => vdec (sv m b) (ss m c))) /\
  (a <> b -> (forall i, d <> a@[i]) -> sets_ss (unsafe_dirac_prod_spinspin a d p b) a (fun m => dmul (dm m d p) (ss m b))) /\
  (a <> b -> (forall i, d <> a@[i]) -> sets_ss (unsafe_dirac_prod_spinspin_transp a d p b) a (fun m => dmul (dm m d p) (dtransp (ss m b)))) /\
  (a <> b -> (forall i, d <> a@[i]) -> sets_ss (unsafe_dirac_prod_spinspin_dag a d p b) a (fun m => dmul (dm m d p) (ddag (ss m b)))) /\
  (a <> b -> (forall i, d <> a@[i]) -> sets_ss (unsafe_spinspin_prod_dirac a b d p) a (fun m => dmul (ss m b) (dm m d p))) /\
  (a <> b -> a <> d -> sets_sv (unsafe_dirac_prod_spin a d p b) a (fun m => dvec (dm m d p) (sv m b))) /\
  (a <> b -> a <> d -> sets_sv (unsafe_spin_prod_dirac a b d p) a (fun m => vdec (sv m b) (dm m d p))) /\
  ((forall i, d <> a@[i]) -> sets_ss (spinspin_dirac_prod_double a d p r) a (fun m => dscale r (dm m d p))) /\
  ((forall i, d <> a@[i]) -> sets_ss (spinspin_dirac_prod_idouble a d p r) a (fun m => dscale (Ci * r) (dm m d p))) /\
  ((forall i, d <> a@[i]) -> sets_ss (spinspin_dirac_summ_the_prod_double a d p r) a (fun m => dadd (ss m a) (dscale r (dm m d p)))) /\
  ((forall i, d <> a@[i]) -> (forall i j, c <> a@[i]@[j]) -> sets_ss (spinspin_dirac_summ_the_prod_complex a d p c) a (fun m => dadd (ss m a) (dscale (m c) (dm m d p)))).
Proof.
  exact (fun a b c d p r P => conj (unsafe_spinspin_hermitian_ok a b) (conj (spin_direct_prod_ok a b c) (conj (unsafe_spinspin_prod_spinspin_ok a b c)
    (conj (unsafe_spinspin_prod_spinspin_dag_ok a b c) (conj (spinspin_summ_the_spinspin_prod_ok a b c) (conj (spinspin_subt_the_spinspin_prod_ok a b c)
    (conj (unsafe_spinspin_prod_spin_ok a b c) (conj (unsafe_spin_prod_spinspin_ok a b c) (conj (unsafe_dirac_prod_spinspin_ok a d p b P)
    (conj (unsafe_dirac_prod_spinspin_transp_ok a d p b P) (conj (unsafe_dirac_prod_spinspin_dag_ok a d p b P) (conj (unsafe_spinspin_prod_dirac_ok a b d p P)
    (conj (unsafe_dirac_prod_spin_ok a d p b P) (conj (unsafe_spin_prod_dirac_ok a b d p P) (conj (spinspin_dirac_prod_double_ok a d p r P)
    (conj (spinspin_dirac_prod_idouble_ok a d p r P) (conj (spinspin_dirac_summ_the_prod_double_ok a d p r P) (spinspin_dirac_summ_the_prod_complex_ok a d p c P)))))))))))))))))).
Qed.
Print Assumptions C73_products.
(** the safe versions, through a temporary: the output may be one of the inputs *)
Theorem C73_safe : forall (out a b d t : path) (p : nat -> nat), perm4 p -> t <> a -> t <> b -> (forall i, d <> t@[i]) ->
  sets_ss_loc (in_ss t) (safe_spinspin_hermitian out a t) out (fun m => ddag (ss m a)) /\
  sets_ss_loc (in_ss t) (safe_spinspin_prod_spinspin out a b t) out (fun m => dmul (ss m a) (ss m b)) /\
  sets_ss_loc (in_ss t) (safe_spinspin_prod_spinspin_dag out a b t) out (fun m => dmul (ss m a) (ddag (ss m b))) /\
  sets_ss_loc (in_ss t) (safe_dirac_prod_spinspin out d p a t) out (fun m => dmul (dm m d p) (ss m a)) /\
  sets_ss_loc (in_ss t) (safe_spinspin_prod_dirac out a d p t) out (fun m => dmul (ss m a) (dm m d p)).
Proof.
  exact (fun out a b d t p P N1 N2 N3 => conj (ss_safe _ t out _ (unsafe_spinspin_hermitian_ok t a N1))
    (conj (ss_safe _ t out _ (unsafe_spinspin_prod_spinspin_ok t a b N1 N2)) (conj (ss_safe _ t out _ (unsafe_spinspin_prod_spinspin_dag_ok t a b N1 N2))
    (conj (ss_safe _ t out _ (unsafe_dirac_prod_spinspin_ok t d p a P N1 N3)) (ss_safe _ t out _ (unsafe_spinspin_prod_dirac_ok t a d p P N1 N3)))))).
Qed.
Print Assumptions C73_safe.
(** the traces, and the identity *)
Theorem C73_traces : forall (a b c d : path) (p : nat -> nat), perm4 p -> (forall i j, c <> a@[i]@[j]) -> (forall i j, c <> b@[i]@[j]) -> (forall i, c <> d@[i]) ->
  sets (trace_spinspin c a) c (fun m => dtrace (ss m a)) /\
  sets (trace_spinspin_prod_spinspin c a b) c (fun m => dtrace (dmul (ss m a) (ss m b))) /\
  sets (trace_dirac_prod_spinspin c d p b) c (fun m => dtrace (dmul (dm m d p) (ss m b))) /\
  sets (trace_spinspin_with_dirac c b d p) c (fun m => dtrace (dmul (dm m d p) (ss m b))) /\
  sets_ss_loc (eq c) (spinspin_put_to_id a c) a (fun m => did).
Proof.
  exact (fun a b c d p P A B D => conj (trace_spinspin_ok c a A) (conj (trace_spinspin_prod_spinspin_ok c a b A B)
    (conj (trace_dirac_prod_spinspin_ok c d p b P D B) (conj (trace_spinspin_with_dirac_ok c d p b P D B) (spinspin_put_to_id_ok a c A))))).
Qed.
Print Assumptions C73_traces.
(** the rotation to the physical basis multiplies by (1+ig5)/sqrt2 (r=0) or (1-ig5)/sqrt2 (r=1) on the left (rso) and on the right (rsi) *)
Theorem C73_rotation : forall s rsi rso, (rsi < 2)%nat -> (rso < 2)%nat ->
  sets_ss (rotate_spinspin_to_physical_basis s rsi rso) s
    (fun m => dmul (den (if Nat.eqb rso 0 then Pplus else Pminus)) (dmul (ss m s) (den (if Nat.eqb rsi 0 then Pplus else Pminus)))).
Proof. exact rotate_ok. Qed.
Print Assumptions C73_rotation.
(** the hypotheses are met by gamma_1, and by objects one beside the other *)
Example dirac_case : valid (base_gamma Pplus 1) /\ perm4 (pos (base_gamma Pplus 1)) /\ same_pos (base_gamma Pplus 1) (base_gamma Pplus 2) /\
  ~ same_pos (base_gamma Pplus 1) (base_gamma Pplus 3) /\
  let opg := [1%nat] in let omg := [2%nat] in let bg := [3%nat] in let o := [4%nat] in
  opg <> omg /\ (forall mu, bg <> opg@[mu]) /\ (forall mu i j, o <> opg@[mu]@[i]@[j]) /\ (forall i r, o <> bg@[i]@[r]).
Proof.
  split; [exact (proj1 (gamma_valid Pplus 1 ltac:(lia)))|]. split; [split; apply (gamma_valid Pplus 1); lia|].
  split; [refine (lt4 _ _ _ _ _); reflexivity|]. split; [intros H; specialize (H 0%nat ltac:(lia)); discriminate H|].
  repeat split; unfold at_; discriminate.
Qed.
