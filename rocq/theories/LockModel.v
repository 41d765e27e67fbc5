(** The lock file shared by independent jobs: src/routines/ios.hpp:155-225.  The jobs see a single file; a trace is the order
    in which the elementary operations of all jobs reach the file system.  Simplifications: the value written by [ofstream<<tag]
    is put in the file at once (its truncation by the constructor is a separate earlier step); several writers overlapping leave
    the text of the last one first, as each text ends with a newline; nobody deletes the file. *)
From Verif Require Import Base.
Open Scope Z_scope.

(** None: no file; Some None: empty file; Some (Some t): the first number in the file is t *)
Definition lfile := option (option Z).

Inductive lop :=
| Probe (p : nat)  (** fileExists(path), done by the callers before try_lock: projects/ib/conf.cpp:360-379 *)
| Trunc (p : nat)  (** ios.hpp:191: the constructor of std::ofstream *)
| Write (p : nat)  (** ios.hpp:191: <<tag<<endl *)
| Check (p : nat). (** ios.hpp:208-223: check_lock *)

Definition lstep (tag : nat -> Z) (f : lfile) (o : lop) : lfile :=
  match o with
  | Trunc _ => Some None
  | Write p => Some (Some (tag p))
  | _ => f
  end.
Definition lrun (tag : nat -> Z) (f : lfile) (tr : list lop) : lfile := fold_left (lstep tag) tr f.

(** the file found by the i-th operation *)
Definition found (tag : nat -> Z) (f : lfile) (tr : list lop) (i : nat) : lfile := lrun tag f (firstn i tr).

(** ios.hpp:212-222: test_tag is zeroed, and stays so when nothing can be read; then it is compared with the tag of the job *)
Definition test_tag (f : lfile) : Z := match f with Some (Some t) => t | _ => 0 end.
Definition check_true (tag : nat -> Z) (f : lfile) (p : nat) : bool := test_tag f =? tag p.
