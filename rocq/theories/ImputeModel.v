(** Model of apop_ml_impute (apop_missing_data.m4.c:85-155), apop_predict (apop_model.m4.c:484-499), on top of the model of
    transform/apop_fix_params.c (TransModel.v), and the function an optimiser evaluates (apop_mle.m4.c:296-330, negshell).
    Doubles are [option V], [None] the NaN; values of likelihoods and penalties are reals (a NaN there ends the search). *)
From Coq Require Import Reals.
From Verif Require Import DataModel TransModel.
Local Open Scope list_scope.
Local Open Scope nat_scope.

Section impute.
Context {V P : Type}.
Notation num := (option V).
Notation pages := (list (page num)).
(** a parametrized model, as far as it is used: the log likelihood of data and parameters (apop_log_likelihood), and the constraint, if any: the penalty
    and the parameters it leaves (apop_model.h: a constraint may move the parameters) *)
Record imodel := IM { im_ll : pages -> P -> R; im_cons : option (pages -> P -> R * P) }.
(** memory during an imputation: the user's data, which is the parameter set of the swapped model; the fill-in table; the parameters of the base model *)
Record istate := IS { is_data : pages; is_tab : list (entry V); is_pars : P }.
Variable m : imodel.
(** apop_missing_data.m4.c:99-101, i_ll: data and parameters change places *)
Definition swap_ll (s : istate) : R := im_ll m (is_data s) (is_pars s).
(** 109-117, i_constraint: the parameters are put back if there was a penalty.  Simplification: copying and copying back (apop_data_copy,
    apop_data_memcpy) is the identity, which holds if the constraint keeps the shape of the parameters *)
Definition swap_constraint (s : istate) : R * istate :=
  match im_cons m with
  | None => (0%R, s)
  | Some c => let '(out, moved) := c (is_data s) (is_pars s) in
              (out, IS (is_data s) (is_tab s) (if Req_EM_T out 0 then moved else is_pars s))
  end.
(** transform/apop_fix_params.c:126-130, fix_params_ll at the point [v] *)
Definition fixed_ll (v : list num) (s : istate) : res (R * istate) :=
  do (d, t) <- fp_unpack (is_data s) (is_tab s) v;
  let s1 := IS d t (is_pars s) in Ok (swap_ll s1, s1).
(** 138-144, fix_params_constraint: the penalty and the point as it is left *)
Definition fixed_constraint (v : list num) (s : istate) : res (R * list num * istate) :=
  do (d, t) <- fp_unpack (is_data s) (is_tab s) v;
  let '(out, s1) := swap_constraint (IS d t (is_pars s)) in
  if Req_EM_T out 0 then Ok (out, v, s1)
  else do w <- fp_pack (is_data s1) (is_tab s1); Ok (out, w, s1).
(** apop_mle.m4.c:296-330, negshell: the value the optimiser gets and the point as it is left (a one-vector parameter set packs to itself).  The swapped
    model always has a constraint. *)
Definition shell (v : list num) (s : istate) : res (R * list num * istate) :=
  do (pen, w, s1) <- fixed_constraint v s;
  do (f, s2) <- fixed_ll w s1; Ok ((pen - f)%R, w, s2).
(** what a search may do: evaluate the objective, or the log likelihood alone (use_constraint = 0; for derivatives and covariances) *)
Inductive probe := Objective (v : list num) | Likelihood (v : list num).
Definition point (e : probe) : list num := match e with Objective v | Likelihood v => v end.
(** the value seen, and the point as it is left *)
Definition do_probe (e : probe) (s : istate) : res (R * list num * istate) :=
  match e with Objective v => shell v s | Likelihood v => do (f, s1) <- fixed_ll v s; Ok (f, v, s1) end.
Fixpoint search (es : list probe) (s : istate) : res (list (R * list num) * istate) :=
  match es with
  | [] => Ok ([], s)
  | e :: r => do (x, w, s1) <- do_probe e s; do (l, s2) <- search r s1; Ok ((x, w) :: l, s2)
  end.
(** fix_params.c:152-157, fixed_est: after the search, its result is unpacked once more *)
Definition fixed_est (es : list probe) (best : list num) (s : istate) : res (list (R * list num) * istate) :=
  do (l, s1) <- search es s;
  do (d, t) <- fp_unpack (is_data s1) (is_tab s1) best; Ok (l, IS d t (is_pars s1)).
End impute.
Arguments imodel : clear implicits. Arguments istate : clear implicits.

Section entry_points.
Context {V P : Type}.
Notation num := (option V).
Notation pages := (list (page num)).
(** ml_impute: NULL is returned; nothing is missing, so that the base model is estimated again (on no data: the copy's parameters were cleared), the user's
    data not being looked at; or the data as filled in, what the search saw, and the base model's parameters afterwards *)
Inductive iout := INull | INothing | IFilled (d : pages) (seen : list (R * list num)) (pars : P).
Fixpoint to_adata (p : page num) (rest : pages) : adata num :=
  match rest with [] => Last p | q :: r => Cons p (to_adata q r) end.
(** the Multivariate Normal fitted to complete rows (apop_estimate is not modelled here) *)
Variable fit : adata num -> imodel V P * P.
Variable nan_string : option string.
(** apop_missing_data.m4.c:137-155.  [es], [best]: what the search tries, and its result. *)
Definition ml_impute (d : pages) (base : option (imodel V P * P)) (es : list (@probe V)) (best : list num) : res iout :=
  match d with
  | [] => UB
  | p :: rest =>
    do b <- match base with
            | Some b => Ok (Some b)
            | None => do l <- listwise_delete None is_nan nan_string (to_adata p rest) false; Ok (option_map fit l)
            end;
    match b with
    | None => Ok INull
    | Some (m, pars) =>
      match fix_params d with
      | None => Ok INothing
      | Some (tab, _) => do (l, s) <- fixed_est m es best (IS d tab pars); Ok (IFilled (is_data s) l (is_pars s))
      end
    end
  end.
(** a NaN in the vector or the matrix of a page *)
Definition page_nan (p : page num) : bool :=
  existsb is_nan (match vect p with Some v => v | None => [] end) || existsb (existsb is_nan) (match mat p with Some g => ga g | None => [] end).
(** apop_model.m4.c:484-499.  [predictor]: what the vtable gives; its result, if any, is returned.  492: the sum of 1 for each NaN, over the first page (the
    default all_pages of apop_map_sum is 'n'), is zero.  The result: the data, and whether a search was run. *)
Definition predict (dsize : nat) (predictor : option (pages -> option pages)) (base : imodel V P * P) (es : list (@probe V)) (best : list num) (d : option pages)
  : res (pages * bool) :=
  do out <- match d with
    | Some d => Ok d
    | None => let p := data_alloc_filled None 0 1 (Z.of_nat dsize) in
              match mat p with None => UB | Some _ => Ok [p] end
    end;
  match match predictor with Some f => f out | None => None end with
  | Some r => Ok (r, false)
  | None =>
    match out with
    | [] => UB
    | p :: _ =>
      if page_nan p then
        do o <- ml_impute out (Some base) es best;
        match o with IFilled d' _ _ => Ok (d', true) | _ => Ok (out, true) end
      else Ok (out, false)
    end
  end.
End entry_points.
