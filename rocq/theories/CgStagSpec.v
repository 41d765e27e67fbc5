(** The rational function of the squared operator applied to a source *)
From Coq Require Import Reals List.
From Coquelicot Require Import Complex.
From Verif Require Import StagSpec.
Import ListNotations.
Open Scope C_scope.

(** cons*source+sum_i weights_i*sol_i *)
Fixpoint wsum (cons : R) (src : cfield) (weights : list R) (sols : list cfield) : cfield :=
  fun x i => match weights, sols with w :: ws, t :: ts => RtoC w * t x i + wsum cons src ws ts x i | _, _ => RtoC cons * src x i end.
