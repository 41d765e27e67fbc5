(** Complex numbers in memory: src/new_types/complex.hpp.  Exact real arithmetic.  An object in memory is named by a path (the
    object and the subscripts applied to it), a complex number being what is found at its path: two objects are the same or
    disjoint, so that all ways in which the arguments of a function may coincide are covered.  Each function maps the memory before
    the call into that after it, storing one component at a time in the order of the code.  What the templates instantiate for the
    layouts of the fields (C45) is not distinguished from an array. *)
From Coq Require Import Reals List.
From Coquelicot Require Import Complex.
Import ListNotations.
Open Scope R_scope.

Definition path := list nat.
(** a[i] *)
Definition at_ (a : path) (i : nat) : path := i :: a.
Notation "a @[ i ]" := (at_ a i) (at level 2, i at level 200, left associativity, format "a @[ i ]").
Definition path_dec : forall a b : path, {a = b} + {a <> b} := list_eq_dec PeanoNat.Nat.eq_dec.

Definition mem := path -> C.
Definition upd (m : mem) (a : path) (v : C) : mem := fun b => if path_dec b a then v else m b.
Definition re (m : mem) (a : path) : R := fst (m a).
Definition im (m : mem) (a : path) : R := snd (m a).
(** a[RE]=v and a[IM]=v *)
Definition set_re (a : path) (v : R) (m : mem) : mem := upd m a (v, im m a).
Definition set_im (a : path) (v : R) (m : mem) : mem := upd m a (re m a, v).

(** complex.hpp:37-49, 631-637 *)
Definition real_part_of_complex_prod (m : mem) (a b : path) : R := re m a * re m b - im m a * im m b.
Definition real_part_of_complex_scalar_prod (m : mem) (a b : path) : R := re m a * re m b + im m a * im m b.
Definition complex_norm2 (m : mem) (c : path) : R := re m c * re m c + im m c * im m c.

(** complex.hpp:57-66 *)
Definition complex_copy (a : path) (b : path) (m : mem) : mem :=
  let m := set_re a (re m b) m in
  set_im a (im m b) m.

(** complex.hpp:68-76 *)
Definition complex_put_to_real (a : path) (b : R) (m : mem) : mem :=
  let m := set_re a (b) m in
  set_im a (0) m.

(** complex.hpp:78-82 *)
Definition complex_put_to_imag (a : path) (b : R) (m : mem) : mem :=
  let m := set_re a (0) m in
  set_im a (b) m.

(** complex.hpp:84-90 *)
Definition complex_put_to_zero (a : path) (m : mem) : mem :=
  complex_put_to_real a 0 m.

(** complex.hpp:92-101 *)
Definition complex_conj (a : path) (b : path) (m : mem) : mem :=
  let m := set_re a (re m b) m in
  set_im a (- im m b) m.

(** complex.hpp:103-108 *)
Definition complex_minus_conj (a : path) (b : path) (m : mem) : mem :=
  let m := set_re a (- re m b) m in
  set_im a (im m b) m.

(** complex.hpp:110-121 *)
Definition complex_summ (a : path) (b : path) (c : path) (m : mem) : mem :=
  let m := set_re a (re m b+re m c) m in
  set_im a (im m b+im m c) m.

(** complex.hpp:123-134 *)
Definition complex_isumm (a : path) (b : path) (c : path) (m : mem) : mem :=
  let m := set_re a (re m b-im m c) m in
  set_im a (im m b+re m c) m.

(** complex.hpp:136-144 *)
Definition complex_isummassign (a : path) (b : path) (m : mem) : mem :=
  complex_isumm a a b m.

(** complex.hpp:146-156 *)
Definition complex_summ_conj2 (a : path) (b : path) (c : path) (m : mem) : mem :=
  let m := set_re a (re m b+re m c) m in
  set_im a (im m b-im m c) m.

(** complex.hpp:158-159 *)
Definition complex_summ_conj1 (a : path) (b : path) (c : path) (m : mem) : mem :=
  complex_summ_conj2 a c b m.

(** complex.hpp:161-172 *)
Definition complex_subt (a : path) (b : path) (c : path) (m : mem) : mem :=
  let m := set_re a (re m b-re m c) m in
  set_im a (im m b-im m c) m.

(** complex.hpp:174-185 *)
Definition complex_isubt (a : path) (b : path) (c : path) (m : mem) : mem :=
  let m := set_re a (re m b+im m c) m in
  set_im a (im m b-re m c) m.

(** complex.hpp:187-195 *)
Definition complex_isubtassign (a : path) (b : path) (m : mem) : mem :=
  complex_isubt a a b m.

(** complex.hpp:197-201 *)
Definition complex_subt_conj2 (a : path) (b : path) (c : path) (m : mem) : mem :=
  let m := set_re a (re m b-re m c) m in
  set_im a (im m b+im m c) m.

(** complex.hpp:202-206 *)
Definition complex_subt_conj1 (a : path) (b : path) (c : path) (m : mem) : mem :=
  let m := set_re a (re m b-re m c) m in
  set_im a (- im m b-im m c) m.

(** complex.hpp:208-216 *)
Definition complex_summassign (a : path) (b : path) (m : mem) : mem :=
  complex_summ a a b m.

(** complex.hpp:218-226 *)
Definition complex_subtassign (a : path) (b : path) (m : mem) : mem :=
  complex_subt a a b m.

(** complex.hpp:228-235 *)
Definition complex_iexp (out : path) (arg : R) (m : mem) : mem :=
  let m := set_im out (sin arg) m in
  set_re out (cos arg) m.

(** complex.hpp:237-247 *)
Definition complex_prod_double (a : path) (b : path) (c : R) (m : mem) : mem :=
  let m := set_re a (re m b*c) m in
  set_im a (im m b*c) m.

(** complex.hpp:249-255 *)
Definition complex_prodassign_double (a : path) (c : R) (m : mem) : mem :=
  complex_prod_double a a c m.

(** complex.hpp:257-269 *)
Definition complex_prod_idouble (a : path) (b : path) (c : R) (m : mem) : mem :=
  let d := - im m b*c in
  let m := set_im a (re m b*c) m in
  set_re a (d) m.

(** complex.hpp:271 *)
Definition complex_prodassign_idouble (a : path) (b : R) (m : mem) : mem :=
  complex_prod_idouble a a b m.

(** complex.hpp:273-283 *)
Definition complex_summ_the_prod_double (a : path) (b : path) (c : R) (m : mem) : mem :=
  let t := re m b*c in
  let m := set_im a (im m a + (im m b*c)) m in
  set_re a (re m a + (t)) m.

(** complex.hpp:285-295 *)
Definition complex_subt_the_prod_double (a : path) (b : path) (c : R) (m : mem) : mem :=
  let t := re m b*c in
  let m := set_im a (im m a - (im m b*c)) m in
  set_re a (re m a - (t)) m.

(** complex.hpp:298-309 *)
Definition complex_summ_the_prod_idouble (a : path) (b : path) (c : R) (m : mem) : mem :=
  let t := im m b*c in
  let m := set_im a (im m a + (re m b*c)) m in
  set_re a (re m a - (t)) m.

(** complex.hpp:312-323 *)
Definition complex_subt_the_prod_idouble (a : path) (b : path) (c : R) (m : mem) : mem :=
  let t := im m b*c in
  let m := set_im a (im m a - (re m b*c)) m in
  set_re a (re m a + (t)) m.

(** complex.hpp:326-339 *)
Definition complex_linear_comb (a : path) (b : path) (cb : R) (c : path) (cc : R) (m : mem) : mem :=
  let m := set_re a (re m b*cb+re m c*cc) m in
  set_im a (im m b*cb+im m c*cc) m.

(** complex.hpp:342-352 *)
Definition complex_summ_the_prod (a : path) (b : path) (c : path) (m : mem) : mem :=
  let t := re m b*re m c-im m b*im m c in
  let m := set_im a (im m a + (re m b*im m c+im m b*re m c)) m in
  set_re a (re m a + (t)) m.

(** complex.hpp:355-367 *)
Definition complex_subt_the_prod (a : path) (b : path) (c : path) (m : mem) : mem :=
  let t := re m b*re m c-im m b*im m c in
  let m := set_im a (im m a - (re m b*im m c+im m b*re m c)) m in
  set_re a (re m a - (t)) m.

(** complex.hpp:370-382 *)
Definition complex_summ_the_conj2_prod (a : path) (b : path) (c : path) (m : mem) : mem :=
  let t := re m b*re m c+im m b*im m c in
  let m := set_im a (im m a + (- re m b*im m c+im m b*re m c)) m in
  set_re a (re m a + (t)) m.

(** complex.hpp:385-394 *)
Definition complex_summ_the_conj1_prod (a : path) (b : path) (c : path) (m : mem) : mem :=
  complex_summ_the_conj2_prod a c b m.

(** complex.hpp:396-407 *)
Definition complex_summ_the_conj_conj_prod (a : path) (b : path) (c : path) (m : mem) : mem :=
  let t := re m b*re m c-im m b*im m c in
  let m := set_im a (im m a + (- re m b*im m c-im m b*re m c)) m in
  set_re a (re m a + (t)) m.

(** complex.hpp:410-423 *)
Definition complex_subt_the_conj2_prod (a : path) (b : path) (c : path) (m : mem) : mem :=
  let t := re m b*re m c+im m b*im m c in
  let m := set_im a (im m a - (- re m b*im m c+im m b*re m c)) m in
  set_re a (re m a - (t)) m.

(** complex.hpp:425-434 *)
Definition complex_subt_the_conj1_prod (a : path) (b : path) (c : path) (m : mem) : mem :=
  complex_subt_the_conj2_prod a c b m.

(** complex.hpp:436-441 *)
Definition complex_subt_the_conj_conj_prod (a : path) (b : path) (c : path) (m : mem) : mem :=
  let t := re m b*re m c-im m b*im m c in
  let m := set_im a (im m a - (- re m b*im m c-im m b*re m c)) m in
  set_re a (re m a - (t)) m.

(** complex.hpp:444-454 *)
Definition unsafe_complex_prod (a : path) (b : path) (c : path) (m : mem) : mem :=
  let m := set_re a (re m b*re m c-im m b*im m c) m in
  set_im a (re m b*im m c+im m b*re m c) m.

(** complex.hpp:457-461 *)
Definition unsafe_complex_prod_minus (a : path) (b : path) (c : path) (m : mem) : mem :=
  let m := set_re a (-(re m b*re m c-im m b*im m c)) m in
  set_im a (-(re m b*im m c+im m b*re m c)) m.

(** complex.hpp:464-474 *)
Definition unsafe_complex_conj2_prod (a : path) (b : path) (c : path) (m : mem) : mem :=
  let m := set_re a (re m b*re m c+im m b*im m c) m in
  set_im a (- re m b*im m c+im m b*re m c) m.

(** complex.hpp:477-481 *)
Definition unsafe_complex_conj2_prod_minus (a : path) (b : path) (c : path) (m : mem) : mem :=
  let m := set_re a (-(re m b*re m c+im m b*im m c)) m in
  set_im a (-(- re m b*im m c+im m b*re m c)) m.

(** complex.hpp:484-491 *)
Definition unsafe_complex_conj1_prod (a : path) (b : path) (c : path) (m : mem) : mem :=
  unsafe_complex_conj2_prod a c b m.

(** complex.hpp:493-494 *)
Definition unsafe_complex_conj1_prod_minus (a : path) (b : path) (c : path) (m : mem) : mem :=
  unsafe_complex_conj2_prod_minus a c b m.

(** complex.hpp:497-507 *)
Definition unsafe_complex_conj_conj_prod (a : path) (b : path) (c : path) (m : mem) : mem :=
  let m := set_re a (re m b*re m c-im m b*im m c) m in
  set_im a (- re m b*im m c-im m b*re m c) m.

(** complex.hpp:510-514 *)
Definition unsafe_complex_conj_conj_prod_minus (a : path) (b : path) (c : path) (m : mem) : mem :=
  let m := set_re a (- re m b*re m c+im m b*im m c) m in
  set_im a (re m b*im m c+im m b*re m c) m.

(** complex.hpp:517-528 *)
Definition safe_complex_prod (a : path) (b : path) (c : path) (m : mem) : mem :=
  let tmp := re m b*re m c-im m b*im m c in
  let m := set_im a (re m b*im m c+im m b*re m c) m in
  set_re a (tmp) m.

(** complex.hpp:530-538 *)
Definition complex_prodassign (a : path) (b : path) (m : mem) : mem :=
  safe_complex_prod a a b m.

(** complex.hpp:541-546 *)
Definition safe_complex_prod_minus (a : path) (b : path) (c : path) (m : mem) : mem :=
  let tmp := -(re m b*re m c-im m b*im m c) in
  let m := set_im a (-(re m b*im m c+im m b*re m c)) m in
  set_re a (tmp) m.

(** complex.hpp:549-561 *)
Definition safe_complex_conj2_prod (a : path) (b : path) (c : path) (m : mem) : mem :=
  let tmp := re m b*re m c+im m b*im m c in
  let m := set_im a (- re m b*im m c+im m b*re m c) m in
  set_re a (tmp) m.

(** complex.hpp:564-569 *)
Definition safe_complex_conj2_prod_minus (a : path) (b : path) (c : path) (m : mem) : mem :=
  let tmp := -(re m b*re m c+im m b*im m c) in
  let m := set_im a (-(- re m b*im m c+im m b*re m c)) m in
  set_re a (tmp) m.

(** complex.hpp:572-573 *)
Definition safe_complex_conj1_prod (a : path) (b : path) (c : path) (m : mem) : mem :=
  safe_complex_conj2_prod a c b m.

(** complex.hpp:574-575 *)
Definition safe_complex_conj1_prod_minus (a : path) (b : path) (c : path) (m : mem) : mem :=
  safe_complex_conj2_prod_minus a c b m.

(** complex.hpp:578-583 *)
Definition safe_complex_prod_i (a : path) (b : path) (m : mem) : mem :=
  let tmp := re m b in
  let m := set_re a (- im m b) m in
  set_im a (tmp) m.

(** complex.hpp:584-585 *)
Definition assign_complex_prod_i (a : path) (m : mem) : mem :=
  safe_complex_prod_i a a m.

(** complex.hpp:588-593 *)
Definition safe_complex_prod_minus_i (a : path) (b : path) (m : mem) : mem :=
  let tmp := re m b in
  let m := set_re a (im m b) m in
  set_im a (- tmp) m.

(** complex.hpp:594-595 *)
Definition assign_complex_prod_minus_i (a : path) (m : mem) : mem :=
  safe_complex_prod_minus_i a a m.

(** complex.hpp:596-600 *)
Definition complex_summ_the_prod_i (a : path) (b : path) (c : path) (m : mem) : mem :=
  let m := set_im a (im m a + (re m b*re m c-im m b*im m c)) m in
  set_re a (re m a - (re m b*im m c+im m b*re m c)) m.

(** complex.hpp:601-605 *)
Definition complex_subt_the_prod_i (a : path) (b : path) (c : path) (m : mem) : mem :=
  let m := set_im a (im m a - (re m b*re m c-im m b*im m c)) m in
  set_re a (re m a + (re m b*im m c+im m b*re m c)) m.

(** complex.hpp:606-610 *)
Definition complex_summ_the_conj2_prod_i (a : path) (b : path) (c : path) (m : mem) : mem :=
  let m := set_im a (im m a + (re m b*re m c+im m b*im m c)) m in
  set_re a (re m a - (- re m b*im m c+im m b*re m c)) m.

(** complex.hpp:611-612 *)
Definition complex_summ_the_conj1_prod_i (a : path) (b : path) (c : path) (m : mem) : mem :=
  complex_summ_the_conj2_prod a c b m.

(** complex.hpp:613-617 *)
Definition complex_summ_the_conj_conj_prod_i (a : path) (b : path) (c : path) (m : mem) : mem :=
  let m := set_im a (im m a + (re m b*re m c-im m b*im m c)) m in
  set_re a (re m a - (- re m b*im m c-im m b*re m c)) m.

(** complex.hpp:618-622 *)
Definition complex_subt_the_conj2_prod_i (a : path) (b : path) (c : path) (m : mem) : mem :=
  let m := set_im a (im m a - (re m b*re m c+im m b*im m c)) m in
  set_re a (re m a + (- re m b*im m c+im m b*re m c)) m.

(** complex.hpp:623-624 *)
Definition complex_subt_the_conj1_prod_i (a : path) (b : path) (c : path) (m : mem) : mem :=
  complex_subt_the_conj2_prod a c b m.

(** complex.hpp:625-629 *)
Definition complex_subt_the_conj_conj_prod_i (a : path) (b : path) (c : path) (m : mem) : mem :=
  let m := set_im a (im m a - (re m b*re m c-im m b*im m c)) m in
  set_re a (re m a + (- re m b*im m c-im m b*re m c)) m.

(** complex.hpp:640-646 *)
Definition complex_reciprocal (rec : path) (c : path) (m : mem) : mem :=
  let cmod := re m c*re m c+im m c*im m c in
  let m := set_re rec (re m c/cmod) m in
  set_im rec (- im m c/cmod) m.

(** complex.hpp:649-659 *)
Definition complex_sqrt (res base : path) (m : mem) : mem :=
  let cmod := sqrt (re m base * re m base + im m base * im m base) in
  let cost := re m base / cmod in
  let sinth := sqrt (/ 2 * (1 - cost)) in
  let costh := sqrt (/ 2 * (1 + cost)) in
  let cmod := sqrt cmod in
  let m := if Rle_dec 0 (im m base) then set_re res (cmod * costh) m else set_re res (- cmod * costh) m in
  set_im res (cmod * sinth) m.
