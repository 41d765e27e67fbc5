(** Paths of links on the periodic lattice. *)
From Verif Require Import Base GeometryModel GeometrySpec ArbModel.

(** a piece starts from a local site and makes some steps, each in a direction, forward (true) or backward; a path is a list of pieces *)
Record piece := mkPiece { from : Z; steps : list (nat * bool) }.
Definition piece_ok (g : grid) (p : piece) : Prop :=
  0 <= from p < locVol g /\ steps p <> [] /\ Forall (fun m => (fst m < 4)%nat) (steps p).
Definition path_ok (g : grid) (p : list piece) : Prop := p <> [] /\ Forall (piece_ok g) p.

(** how the user declares them *)
Definition step_cmd (m : nat * bool) : cmd := if snd m then MoveForward (fst m) else MoveBackward (fst m).
Definition piece_cmds (first : bool) (p : piece) : list cmd :=
  StartNewPathFromLoclx (from p) :: (if first then [] else [SummToPreviousPath]) ++ map step_cmd (steps p) ++ [StopCurrentPath].
Definition path_cmds (p : list piece) : list cmd :=
  match p with [] => [] | a :: l => piece_cmds true a ++ flat_map (piece_cmds false) l end.
Definition n_steps (ps : list (list piece)) : Z := Z.of_nat (length (flat_map steps (concat ps))).

Section Value.
Context {T : Type} (zero one : T) (mul muldag add : T -> T -> T) (G : list Z) (U : list Z -> nat -> T).
(** the ordered product of the links, the ones walked backward being daggered; a step takes the link between the two sites *)
Fixpoint walk (x : list Z) (l : list (nat * bool)) (acc : T) : T :=
  match l with
  | [] => acc
  | (mu, true) :: l => walk (periodic_shift G x mu 1) l (mul acc (U x mu))
  | (mu, false) :: l => let y := periodic_shift G x mu (-1) in walk y l (muldag acc (U y mu))
  end.
Definition path_value (site : Z -> list Z) (p : list piece) : T := fold_left (fun a q => add a (walk (site (from q)) (steps q) one)) p zero.
(** the links a walk goes through *)
Fixpoint links_of (x : list Z) (l : list (nat * bool)) : list (list Z * nat) :=
  match l with
  | [] => []
  | (mu, true) :: l => (x, mu) :: links_of (periodic_shift G x mu 1) l
  | (mu, false) :: l => let y := periodic_shift G x mu (-1) in (y, mu) :: links_of y l
  end.
Definition links_of_path (site : Z -> list Z) (p : list piece) : list (list Z * nat) := flat_map (fun q => links_of (site (from q)) (steps q)) p.
End Value.
