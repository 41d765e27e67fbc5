(** Vocabulary of the statements about parallel loops. *)
From Verif Require Import Base ParModel.

Section S.
Context {V : Type}.
(** a body that only loads from R and stores to W *)
Definition confined (R W : Z -> bool) : prog V -> Prop :=
  fix c (p : prog V) : Prop :=
    match p with
    | Ret => True
    | Ld a k => R a = true /\ forall v, c (k v)
    | St a v k => W a = true /\ c k
    end.


(** no body stores where another one loads or stores *)
Definition indep (body : Z -> prog V) (idx : list Z) (R W : Z -> Z -> bool) : Prop :=
  (forall i, In i idx -> confined (R i) (W i) (body i)) /\
  (forall i a, In i idx -> W i a = true -> R i a = true) /\
  (forall i j a, In i idx -> In j idx -> i <> j -> W i a = true -> R j a = false).


(** equality of field contents *)
Definition feq (a b : @fields V) := forall f x, a f x = b f x.

End S.

(** one past the largest index the loop counter can hold *)
Definition lim (tmin tmax : ity) : Z := match common tmin tmax with I32 => 2147483648 | I64 => 4294967296 end.

(** a launch whose thread indices fit the index type *)
Definition fits (b : backend) (mn mx : Z) : Prop :=
  0 <= mn <= mx /\
  match b with
  | OpenMP => True
  | Cuda tmin tmax bs => 0 < bs /\ mn + (mx - mn + bs - 1) / bs * bs <= lim tmin tmax /\ mx < lim tmin tmax /\
                         (mx - mn) + bs <= 4294967296
  end.
