(** Textbook quantities, independent of the code: sums, means, moments, replicates. *)
From Coq Require Import Reals.
From Verif Require Import Base.
Local Open Scope list_scope.
Local Open Scope R_scope.
Global Arguments IZR : simpl never.

Definition Rsum (l : list R) : R := fold_right Rplus 0 l.
Definition avg (l : list R) : R := Rsum l / INR (length l).
(** sum of products *)
Definition Rdot (a b : list R) : R := Rsum (zip_with Rmult a b).
(** k-th population central moment *)
Definition central (k : nat) (l : list R) : R := avg (map (fun x => (x - avg l) ^ k) l).
(** sample variance and covariance (n-1 in the denominator) *)
Definition svar (l : list R) : R := Rsum (map (fun x => (x - avg l) ^ 2) l) / (INR (length l) - 1).
Definition scov (a b : list R) : R :=
  Rsum (zip_with (fun x y => (x - avg a) * (y - avg b)) a b) / (INR (length a) - 1).
(** the data set in which element i of l is listed k_i times *)
Definition rep (l : list R) (ks : list nat) : list R := concat (zip_with (fun x k => replicate k x) l ks).
Definition total (ks : list nat) : nat := fold_right Nat.add 0%nat ks.
