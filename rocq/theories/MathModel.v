(** Small integer routines: src/routines/math_routines.cpp:24-56, 72-95, src/routines/math_routines.hpp:31-32. *)
From Verif Require Import Base.
Open Scope Z_scope.

(** math_routines.cpp:25-32: bitrev; the loop runs over i = 0..l2n-1.  [in & (1<<i)] is not zero when bit i of [in] is set. *)
Fixpoint bitrev_loop (n : nat) (i : Z) (inp l2n out : Z) : Z :=
  match n with
  | O => out
  | S k => bitrev_loop k (i + 1) inp l2n
             (if negb (Z.land inp (Z.shiftl 1 i) =? 0) then out + Z.shiftl 1 (l2n - i - 1) else out)
  end.
Definition bitrev (inp l2n : Z) : Z := bitrev_loop (Z.to_nat l2n) 0 inp l2n 0.

(** math_routines.cpp:35-45: find_max_pow2; None: the loop has not ended within the given number of turns *)
Fixpoint find_max_pow2 (fuel : nat) (nl a : Z) : option Z :=
  match fuel with
  | O => None
  | S k => if Z.land a 1 =? 0 then find_max_pow2 k (nl + 1) (Z.shiftr a 1) else Some nl
  end.

(** math_routines.cpp:48-56: log2N; [do l++; while((2<<l)<N)] *)
Fixpoint log2N_loop (fuel : nat) (l N : Z) : option Z :=
  match fuel with
  | O => None
  | S k => let l := l + 1 in
           if negb (Z.shiftl 2 l <=? 2147483647) then None (* overflow of the int *)
           else if Z.shiftl 2 l <? N then log2N_loop k l N else Some l
  end.
Definition log2N (N : Z) : option Z := log2N_loop 32 0 N.

(** math_routines.hpp:31-32: get_bit *)
Definition get_bit (i ibit : Z) : bool := negb (Z.land (Z.shiftr i ibit) 1 =? 0).
