(** Discrete choice: the vocabulary of C85 and C86. *)
From Coq Require Import Reals.
From Verif Require Import DataModel StatsSpec LinProps.
Local Open Scope list_scope.
Local Open Scope R_scope.

(** inputs X, one row per observation; coefficients B, one column per option other than the first (the numeraire) *)
Definition choice_data (d par : page R) (y : list R) (X B : grid R) : Prop :=
  vect d = Some y /\ mat d = Some X /\ mat par = Some B /\ wf_grid X /\ wf_grid B /\ gc X = gr B /\ (0 < gc B)%nat /\ length y = gr X.
(** x_i . beta_j; zero for the numeraire *)
Definition utility (X B : grid R) (i j : nat) : R := match j with O => 0 | S k => sum_to (gc X) (fun l => elt X false i l * elt B false l k) end.
(** the logit probability that observation [i] takes option [j] *)
Definition choice_prob (X B : grid R) (i j : nat) : R := exp (utility X B i j) / sum_to (S (gc B)) (fun l => exp (utility X B i l)).
(** [c i]: the number of the option that observation [i] took *)
Definition took (cats y : list R) (n : nat) (c : nat -> nat) : Prop := forall i, (i < n)%nat -> (c i < length cats)%nat /\ nth (c i) cats 0 = nth i y 0.
(** the point (1-t) A + t B *)
Definition between (t : R) (A B M : grid R) : Prop :=
  gr M = gr A /\ gc M = gc A /\ wf_grid M /\ forall i j, (i < gr A)%nat -> (j < gc A)%nat -> elt M false i j = (1 - t) * elt A false i j + t * elt B false i j.
(** a distribution function never 0 or 1, and its density *)
Definition distribution (Phi phi : R -> R) : Prop := forall x, 0 < Phi x < 1 /\ derivable_pt_lim Phi x (phi x).
(** the probit probability that observation [i] takes the option of the coefficients in column [j] *)
Definition probit_prob (Phi : R -> R) (X B : grid R) (i j : nat) : R := 1 - Phi (- utility X B i (S j)).
(** [B'] is the column of coefficients [B] with [t] in place [j] *)
Definition with_coef (B : grid R) (j : nat) (t : R) (B' : grid R) : Prop :=
  wf_grid B' /\ gr B' = gr B /\ gc B' = gc B /\ forall l, (l < gr B)%nat -> elt B' false l 0 = if (l =? j)%nat then t else elt B false l 0.
