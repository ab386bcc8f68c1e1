(** Model of apop_kl_divergence, apop_stats.m4.c:731-776, and of the probability of one observation under a PMF, model/apop_pmf.c:219-252.  Doubles are reals, with infinities and NaN where they can
    arise.  Apop_stopif expands to do ... while (0) (apop.m4.h:623-628), so that a break in it ends the macro, not the loop around it. *)
From Coq Require Import Reals.
From Verif Require Import Base SearchModel.
Local Open Scope list_scope.
Local Open Scope R_scope.

Section kl.
  Context {D : Type}.
  (** an estimated PMF: its rows, its weights if any, and settings->total_weight as recorded by estim (pmf.c:85-86) *)
  Record pmf := Pmf { rows : list D; wts : option (list R); tw : R }.
  (** pmf.c:76-90, estim *)
  Definition estim (l : list D) (w : option (list R)) : pmf := Pmf l w (match w with Some w => fold_left Rplus w 0 | None => 0 end).
  (** 746: the probability of row [i] *)
  Definition row_p (f : pmf) (i : nat) : xr := match wts f with Some w => xquot (nth i w 0) (tw f) | None => xquot 1 (INR (length (rows f))) end.
  (** 746-755, one row; [q]: the probability of the row under the other model.  753: minus infinity is added, and the loop body goes on *)
  Definition kl_step (p : xr) (q : R) (div : xr) : xr :=
    if truthy p then
      let div := if Req_EM_T q 0 then xadd div NInf else div in
      match p with Fin p => xadd div (xscale p (xlog (xquot p q))) | _ => NaN end
    else div.
  (** 741-756: from a PMF.  More rows than weights: read outside the vector *)
  Definition kl_pmf (f : pmf) (q : D -> R) : res xr :=
    if match wts f with Some w => (length (rows f) <=? length w)%nat | None => true end
    then Ok (fold_left (fun div '(i, x) => kl_step (row_p f i) (q x) div) (combine (seq 0 (length (rows f))) (rows f)) (Fin 0))
    else UB.
  (** 757-773: by draws; [p], [q]: the densities, which are not negative *)
  Definition kl_draws (draws : list D) (p q : D -> R) : xr :=
    xscale (1 / INR (length draws)) (fold_left (fun div x => xadd div (if Req_EM_T (p x) 0 then Fin 0 else xlog (xquot (p x) (q x)))) draws (Fin 0)).

  (** pmf.c:228-252 for one observation: the first row equal to it *)
  Context (eqb : D -> D -> bool).
  Fixpoint find_from (x : D) (l : list D) (i : nat) : option nat := match l with [] => None | y :: l => if eqb x y then Some i else find_from x l (S i) end.
  Definition pmf_p1 (f : pmf) (x : D) : R :=
    match find_from x (rows f) 0 with
    | None => 0
    | Some i => match wts f with Some w => nth i w 0 / tw f | None => 1 / INR (length (rows f)) end
    end.
End kl.
Arguments pmf : clear implicits.
