(** Regression: the vocabulary of C75 to C77.  [elt X false i j]: the element of the matrix; [sum_to n f]: f(0) + ... + f(n-1). *)
From Coq Require Import Reals.
From Verif Require Import DataModel StatsSpec LinProps.
Local Open Scope list_scope.
Local Open Scope R_scope.

(** the weight of observation [i]; 1 without weights *)
Definition weight (w : option (list R)) (i : nat) : R := match w with Some w => nth i w 0 | None => 1 end.
(** the value of the linear function with coefficients [b] for row [i] of the matrix *)
Definition fitted (X : grid R) (b : list R) (i : nat) : R := sum_to (gc X) (fun j => elt X false i j * nth j b 0).
(** the weighted sum of squared errors *)
Definition wsse (w : option (list R)) (X : grid R) (y b : list R) : R := sum_to (gr X) (fun i => weight w i * (nth i y 0 - fitted X b i) ^ 2).
(** X'WX *)
Definition gram (w : option (list R)) (X : grid R) (i j : nat) : R := sum_to (gr X) (fun l => weight w l * elt X false l i * elt X false l j).
Definition delta (i j : nat) : R := if (i =? j)%nat then 1 else 0.
Definition inverse_of (k : nat) (G : nat -> nat -> R) (H : grid R) : Prop :=
  wf_grid H /\ gr H = k /\ gc H = k /\ (forall i j, (i < k)%nat -> (j < k)%nat -> sum_to k (fun l => elt H false i l * G l j) = delta i j) /\
  (forall i j, (i < k)%nat -> (j < k)%nat -> sum_to k (fun l => G i l * elt H false l j) = delta i j).
(** a data set ready for regression: a vector, a matrix with as many rows, and as many weights, if any, none negative *)
Definition regression (d : page R) (y : list R) (X : grid R) : Prop :=
  vect d = Some y /\ mat d = Some X /\ wf_grid X /\ length y = gr X /\ (forall w, wts d = Some w -> length w = gr X /\ (forall x, In x w -> 0 <= x)).
(** the inversion does its job on the matrix G of size k *)
Definition inverts (linv : grid R -> option (grid R)) (k : nat) (G : nat -> nat -> R) (H : grid R) : Prop :=
  inverse_of k G H /\ forall M, wf_grid M -> gr M = k -> gc M = k -> (forall i j, (i < k)%nat -> (j < k)%nat -> cell M i j = Some (G i j)) -> linv M = Some H.
