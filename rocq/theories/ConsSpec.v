(** Linear constraints: the vocabulary of C83.  [Rdot]: the scalar product. *)
From Coq Require Import Reals.
From Verif Require Import DataModel StatsSpec ConsModel.
Local Open Scope list_scope.
Local Open Scope R_scope.

(** the Euclidean distance *)
Definition eu (a b : list R) : R := R_sqrt.sqrt (Rsum (zip_with (fun x y => (x - y) ^ 2) a b)).
(** every constraint (k, r): k <= r . x *)
Definition meets (c : list (R * list R)) (x : list R) : Prop := forall k r, In (k, r) c -> k <= Rdot r x.
(** the nearest point to beta that meets the constraints *)
Definition nearest (c : list (R * list R)) (beta x : list R) : Prop := length x = length beta /\ meets c x /\ forall y, length y = length beta -> meets c y -> eu beta x <= eu beta y.
(** the scratch after any calls with the constraints [c] (None: the default) and margin 0, whatever their beta *)
Inductive reached (c : option constraints) : option scratch -> Prop :=
| reached_first : reached c None
| reached_call beta pen x st st' : reached c st -> linear_constraint beta c 0 st = Ok (pen, x, st') -> reached c st'.
