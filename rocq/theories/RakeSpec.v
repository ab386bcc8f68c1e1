(** What raking is about: tables of cells (the values of the variables) with weights, and their margins. *)
From Coq Require Import Reals.
From Verif Require Import Base StatsSpec.
Local Open Scope list_scope.
Local Open Scope R_scope.

(** a value: NaN is a value like the others *)
Notation num := (option R).
Lemma key_dec (a b : list num) : {a = b} + {a <> b}.
Proof. repeat decide equality. apply Req_EM_T. Qed.
(** the values of a cell for the variables of a contrast (true: the variable takes part) *)
Definition key (contrast : list bool) (cell : list num) : list num := keep_by contrast cell.
(** the total weight of the cells of the table that have the given values *)
Definition margin (contrast : list bool) (cells : list (list num)) (w : list R) (k : list num) : R :=
  Rsum (zip_with (fun c x => if key_dec (key contrast c) k then x else 0) cells w).
(** the values of the cell are among those that the margin table has, for each variable of the contrast *)
Definition known (contrast : list bool) (mcells : list (list num)) (cell : list num) : Prop :=
  forall i x, contrast !! i = Some true -> cell !! i = Some x -> exists c, In c mcells /\ c !! i = Some x.
(** two tables over the same [width] variables with a weight for each cell; contrasts of at least one variable; the weights to start with do not sum to zero;
    a NaN in the cells to be raked appears in the margin table, too *)
Definition valid (width : nat) (mcells : list (list num)) (mw : list R) (cells : list (list num)) (w : list R) (config : list (list bool)) : Prop :=
  (forall c, In c mcells -> length c = width) /\ (forall c, In c cells -> length c = width) /\ length mw = length mcells /\ length w = length cells /\
  (forall c, In c config -> length c = width /\ In true c) /\ Rsum w <> 0 /\
  (forall i c, In c cells -> c !! i = Some None -> exists c', In c' mcells /\ c' !! i = Some None).
Definition nonnegative (l : list R) : Prop := forall x, In x l -> 0 <= x.
Definition positive (l : list R) : Prop := forall x, In x l -> 0 < x.
Definition Rprod (l : list R) : R := fold_right Rmult 1 l.
(** a table is log-linear over another: in each cell a product of factors, one for each contrast, each a function of the cell's values for that contrast *)
Definition log_linear (cells : list (list num)) (config : list (list bool)) (from to : list R) : Prop :=
  exists factors : list (list num -> R), length factors = length config /\ (forall f k, In f factors -> 0 <= f k) /\
    to = zip_with (fun cell x => x * Rprod (zip_with (fun c f => f (key c cell)) config factors)) cells from.
(** the number of combinations of values that a contrast has in the margin table *)
Definition distinct (mcells : list (list num)) (i : nat) : nat := length (nodup key_dec (map (fun c => match c !! i with Some x => [x] | None => [] end) mcells)).
Fixpoint combinations_from (mcells : list (list num)) (contrast : list bool) (i : nat) : nat :=
  match contrast with [] => 1 | b :: r => ((if b then distinct mcells i else 1) * combinations_from mcells r (S i))%nat end.
Definition combinations (mcells : list (list num)) (config : list (list bool)) : nat := fold_right (fun c n => (combinations_from mcells c 0 + n)%nat) 0%nat config.
(** Kullback and Leibler's divergence of two tables *)
Definition divergence (v w : list R) : R := Rsum (zip_with (fun a b => a * ln (a / b)) v w).
Definition log_likelihood (n u : list R) : R := Rsum (zip_with (fun a b => a * ln b) n u).
(** a table without weight wherever the other has none *)
Definition zero_with (s x : list R) : Prop := length x = length s /\ forall i, s !! i = Some 0 -> x !! i = Some 0.
(** the two tables have the same margins, for all contrasts *)
Definition same_margins (config : list (list bool)) (cells : list (list num)) (x y : list R) : Prop := forall c k, In c config -> margin c cells x k = margin c cells y k.
