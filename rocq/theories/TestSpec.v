(** Tests: the vocabulary of C78 to C81. *)
From Coq Require Import Reals.
From Verif Require Import DataModel StatsSpec LinProps.
Local Open Scope list_scope.
Local Open Scope R_scope.

(** a distribution function symmetric about zero *)
Definition symmetric (F : R -> R) : Prop := (forall x, F (- x) = 1 - F x) /\ (forall x y, x < y -> F x < F y) /\ (forall x, 0 <= F x <= 1).
(** the element of that name *)
Fixpoint elem (l : list (string * option R)) (k : string) : option R := match l with [] => None | (s, x) :: r => if String.eqb s k then x else elem r k end.
(** the variance of the mean of [l], as the textbook has it: the sample variance divided by the number of observations *)
Definition mean_var (l : list R) : R := svar l / INR (length l).
(** the same with one observation less *)
Definition mean_var1 (l : list R) : R := svar l / (INR (length l) - 1).
Definition diffs (a b : list R) : list R := zip_with Rminus a b.
(** a table's totals, the count expected of a cell if rows and columns were independent, and Pearson's statistic *)
Definition row_total (m : grid R) (i : nat) : R := sum_to (gc m) (fun j => elt m false i j).
Definition col_total (m : grid R) (j : nat) : R := sum_to (gr m) (fun i => elt m false i j).
Definition grand (m : grid R) : R := sum_to (gr m) (row_total m).
Definition expected (m : grid R) (i j : nat) : R := row_total m i * col_total m j / grand m.
Definition pearson (m : grid R) : R := sum_to (gr m) (fun i => sum_to (gc m) (fun j => (elt m false i j - expected m i j) ^ 2 / expected m i j)).
(** the sum of squared deviations from the mean; the part of it between the groups *)
Definition sum_sq (l : list R) : R := Rsum (map (fun x => (x - avg l) ^ 2) l).
Definition between (groups : list (list R)) : R := Rsum (map (fun g => INR (length g) * (avg g - avg (concat groups)) ^ 2) groups).
(** row i, column j of a returned table *)
Definition at_ (t : option (list (list (option R)))) (i j : nat) : option R := match t with Some t => nth j (nth i t []) None | None => None end.
(** the F test: the data less the means of all columns but the first; Q times beta less c; the quadratic form of K *)
Definition center (X : grid R) (j : nat) : R := if (j =? 0)%nat then 0 else col_total X j / INR (gr X).
Definition dev (X : grid R) (r j : nat) : R := elt X false r j - center X j.
Definition cgram (X : grid R) (i j : nat) : R := sum_to (gr X) (fun r => dev X r i * dev X r j).
Definition gap (Q : grid R) (b c : list R) (i : nat) : R := sum_to (gc Q) (fun j => elt Q false i j * nth j b 0) - nth i c 0.
(** Q H Q' *)
Definition qhq (Q H : grid R) (i j : nat) : R := sum_to (gc Q) (fun b => sum_to (gc Q) (fun a => elt Q false i a * elt H false a b) * elt Q false j b).
Definition quad (n : nat) (K : grid R) (d : nat -> R) : R := sum_to n (fun i => d i * sum_to n (fun j => elt K false i j * d j)).
