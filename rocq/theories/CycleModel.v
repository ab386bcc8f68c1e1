(** Model of the search dimension by dimension, apop_mle.m4.c:538-572 (dim_cycle), and of the starting point of a model with fixed
    parameters, transform/apop_fix_params.c:182-196 (set_starting_point).  Doubles are reals.  The one-dimensional searches are arbitrary: [sub i x b] is where the search over
    parameter [i] ends, started at [x], the others as in [b].  The parameters are the vector of apop_data_pack order; the log likelihood is finite. *)
From Coq Require Import Reals.
From Verif Require Import Base.
Local Open Scope list_scope.
Local Open Scope R_scope.

Section cycle.
  Context (ll : list R -> R) (sub : nat -> R -> list R -> R).
  (** the log likelihood in the info page of the model that is estimated, if there is one already (it is copied with the model, apop_model.m4.c:174); 531-536, get_ll *)
  Context (recorded : option R).
  Definition get_ll (b : list R) : R := match recorded with Some l => l | None => ll b end.

  (** set_starting_point for one free parameter; without a starting point the search starts at one (apop_mle.m4.c:370-376) *)
  Definition sub_start (start : option (list R)) (i : nat) : R := match start with Some l => nth i l 0 | None => 1 end.
  (** 555-565: from dimension [i] on; the parameters, and the log of (dimension, start) of the searches (not in the code) *)
  Fixpoint dims (start : option (list R)) (todo i : nat) (beta : list R) (log : list (nat * R * list R)) : list R * list (nat * R * list R) :=
    match todo with
    | O => (beta, log)
    | S todo => dims start todo (S i) (<[i := sub i (sub_start start i) beta]> beta) (log ++ [(i, sub_start start i, beta)])
    end.
  (** 547-569, the do-while loop.  [last]: the log likelihood of the cycle before, None at first (minus infinity).  The number of cycles made comes back, too. *)
  Fixpoint cycles (tol : R) (fuel : nat) (k : nat) (last : option R) (start : option (list R)) (beta : list R) (log : list (nat * R * list R)) : res (list R * nat * list (nat * R * list R)) :=
    match fuel with
    | O => Fuel
    | S fuel =>
      let '(beta, log) := dims start (length beta) 0 beta log in
      let this := get_ll beta in
      if match last with None => true | Some l => if Rlt_dec tol (Rabs (this - l)) then true else false end
      then cycles tol fuel (S k) (Some this) (Some beta) beta log
      else Ok (beta, S k, log)
    end.
  (** 370-376 and 538-572, called for [n] parameters: the parameters, the number of cycles, the log.  [start]: as set by the user.  The array [paramv] that the settings point to at the end (568) has
      been freed (571); that pointer is not modelled. *)
  Definition dim_cycle (tol : R) (fuel : nat) (start : option (list R)) (n : nat) : res (list R * nat * list (nat * R * list R)) :=
    match start with
    | None => cycles tol fuel 0 None None (replicate n 1) []
    | Some l => if (n <=? length l)%nat then cycles tol fuel 0 None (Some l) (take n l) [] else UB
    end.
End cycle.

(** apop_fix_params.c:15-25 and 30-40: the table of free parameters of a parameter vector (one page; column -1, page 0), one line each: row, column, page, value;
    183-190: the values are those of the starting point *)
Definition fix_table (start : list R) (free : list nat) : list (list R) := map (fun i => [INR i; -1; 0; nth i start 0]) free.
(** 191-195: the column of values is a view into that matrix, row by row in memory; as many numbers as there are free parameters are copied from where the view begins *)
Definition fix_start (start : list R) (free : list nat) : list R := take (length free) (drop 3 (concat (fix_table start free))).
