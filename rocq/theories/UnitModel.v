(** Unitarisation of a matrix by averaging it with its inverse: src/new_types/su3_op.hpp:1406-1460, in exact real arithmetic. *)
From Coq Require Import Reals List.
From Coquelicot Require Import Complex.
From Verif Require Import CplxModel MatModel MatSpec GaugeModel.
Import ListNotations.
Open Scope R_scope.

(** atan2 of the C library *)
Definition atan2 (y x : R) : R :=
  if Rlt_dec 0 x then atan (y / x)
  else if Rlt_dec x 0 then (if Rlt_dec y 0 then atan (y / x) - PI else atan (y / x) + PI)
  else if Rlt_dec 0 y then PI / 2 else if Rlt_dec y 0 then - (PI / 2) else 0.
(** complex.hpp:662-669; the base is not zero where it is used *)
Definition complex_pow (res base : path) (exp : R) (m : mem) : mem :=
  let cmod := Rpower (re m base * re m base + im m base * im m base) (exp / 2) in
  let anomaly := atan2 (im m base) (re m base) * exp in
  set_im res (cmod * sin anomaly) (set_re res (cmod * cos anomaly) m).

(** su3_op.hpp:1427-1437: one entry of the average, with the residue *)
Definition avg_entry (new tmp inv : path) (gamma : R) (s : mem * R) (e : nat * nat) : mem * R :=
  let '(m, residue) := s in let '(ic, jc) := e in
  let m := set_re new@[ic]@[jc] (0.5 * (re m tmp@[ic]@[jc] * gamma + re m inv@[jc]@[ic] / gamma)) m in
  let m := set_im new@[ic]@[jc] (0.5 * (im m tmp@[ic]@[jc] * gamma - im m inv@[jc]@[ic] / gamma)) m in
  let dr := re m new@[ic]@[jc] - re m tmp@[ic]@[jc] in
  let di := im m new@[ic]@[jc] - im m tmp@[ic]@[jc] in
  (m, residue + dr * dr + di * di).
(** su3_op.hpp:1419-1441: the body of the loop, and the residue *)
Definition unit_body (new tmp inv det rec_det a : path) (m : mem) : mem * R :=
  let m := unsafe_su3_explicit_inverse inv tmp det rec_det a m in
  let gamma := sqrt (su3_norm2 m inv / su3_norm2 m tmp) in
  let '(m, residue) := fold_left (avg_entry new tmp inv gamma) [(0, 0); (0, 1); (0, 2); (1, 0); (1, 1); (1, 2); (2, 0); (2, 1); (2, 2)]%nat (m, 0) in
  (su3_copy tmp new m, sqrt residue).
(** su3_op.hpp:1417-1443: do ... while(residue>tol); [n]: the iterations done *)
Inductive unit_loop (new tmp inv det rec_det a : path) (tol : R) : mem -> nat -> mem -> Prop :=
| unit_last m m' residue : unit_body new tmp inv det rec_det a m = (m', residue) -> residue <= tol -> unit_loop new tmp inv det rec_det a tol m 1 m'
| unit_more m m' residue n m'' : unit_body new tmp inv det rec_det a m = (m', residue) -> residue > tol -> unit_loop new tmp inv det rec_det a tol m' n m'' -> unit_loop new tmp inv det rec_det a tol m (S n) m''.
(** su3_op.hpp:1445-1449: divide by the third root of the determinant.  [d]: local of safe_su3_prod_complex *)
Definition unit_end (new det fact a d : path) : mem -> mem :=
  su3_det det new a;; complex_pow fact det (- 1 / INR NCOL);; safe_su3_prod_complex new new fact d.

(** the routine, with its local variables: the value left in [new], when it returns.  The result of this inlined routine does not depend on new and prop being the same
    object, as the one called on fields (1452-1460) copies both *)
Definition l_inv : path := [3%nat].
Definition l_copy : path := [4%nat].
Definition l_det : path := [10%nat].
Definition l_rec : path := [11%nat].
Definition l_a : path := [12%nat].
Definition l_fact : path := [13%nat].
Definition unitarize_explicitly_inverting (prop : cmat) (tol : R) (n : nat) (out : cmat) : Prop :=
  exists m, unit_loop a_out a_y l_inv l_det l_rec l_a tol (su3_copy a_y a_x (args mid prop mid)) n m /\
  out = mat (unit_end a_out l_det l_fact l_a l_copy m) a_out.
