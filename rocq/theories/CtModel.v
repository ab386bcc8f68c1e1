(** Model of transform/apop_coordinate_transform.c and of apop_p and apop_log_likelihood (apop_model.m4.c).  Doubles are [xr] (SearchModel.v)
    where they may be infinite or NaN, reals elsewhere.  A data set is one page. *)
From Coq Require Import Reals.
From Verif Require Import DataModel SearchModel.
Local Open Scope list_scope.
Local Open Scope R_scope.

(** exp of the C library (log: xlog of SearchModel.v) *)
Definition xexp (a : xr) : xr := match a with Fin x => Fin (exp x) | PInf => PInf | NInf => Fin 0 | NaN => NaN end.
(** the methods of a model that has parameters [par]; None: NULL *)
Record meth := Me { m_p : option (list R -> page R -> xr); m_ll : option (list R -> page R -> xr) }.
(** apop_model.m4.c:242-250, apop_p *)
Definition apop_p (m : meth) (par : list R) (d : page R) : xr :=
  match m_p m with
  | Some f => f par d
  | None => match m_ll m with Some f => xexp (f par d) | None => NaN end
  end.
(** 257-265, apop_log_likelihood *)
Definition log_likelihood (m : meth) (par : list R) (d : page R) : xr :=
  match m_ll m with
  | Some f => f par d
  | None => match m_p m with Some f => xlog (f par d) | None => NaN end
  end.

(** the settings group (apop.m4.h:1618-1624) without base_to_transformed, which no function reads *)
Record cts := Cs { c_base : option meth; c_rev : option (page R -> page R); c_jac : option (page R -> R) }.
(** apop_coordinate_transform.c:35-47, ct_ll; [bpar]: the parameters of the base model; [cs] None: no settings group *)
Definition ct_ll (cs : option cts) (bpar : list R) (d : page R) : xr :=
  match cs with
  | None => NaN
  | Some cs =>
    match c_base cs with None => NaN | Some b =>
    match c_rev cs with None => NaN | Some rev =>
    match c_jac cs with None => NaN | Some jac =>
      xadd (log_likelihood b bpar (rev d)) (xlog (Fin (jac d)))
    end end end
  end.

(** ---- whose parameters are whose ---- *)
(** Blocks of parameters (None: freed); for each base model the block of its parameters (None: NULL).  A transformed model has parameters of its
    own, or NULL, and a base model. *)
Record world := Wd { blocks : list (option (list R)); bases : list (option nat) }.
Record ctm := Ct { t_par : option nat; t_base : nat }.
Definition alloc (w : world) (v : list R) : world * nat := (Wd (blocks w ++ [Some v]) (bases w), length (blocks w)).
Definition read (w : world) (a : nat) : res (list R) := match blocks w !! a with Some (Some v) => Ok v | _ => UB end.
Definition write (w : world) (a : nat) (v : list R) : res world :=
  match blocks w !! a with Some (Some _) => Ok (Wd (<[a := Some v]> (blocks w)) (bases w)) | _ => UB end.
(** apop_prep of a base model that leaves parameters that are there alone (apop_model_clear, apop_model.m4.c:32-33); [fresh]: what apop_data_alloc gives *)
Definition base_prep (fresh : list R) (w : world) (b : nat) : res (world * nat) :=
  match bases w !! b with
  | Some (Some a) => Ok (w, a)
  | Some None => let '(w1, a) := alloc w fresh in Ok (Wd (blocks w1) (<[b := Some a]> (bases w1)), a)
  | None => UB
  end.
(** 26-33, jacobian_prep.  [group]: whether there is a settings group; without one the error is noted (28) and the group, NULL, is read all the same (30) *)
Definition ct_prep (fresh : list R) (group : bool) (w : world) (m : ctm) : res (world * ctm) :=
  if group then do (w1, a) <- base_prep fresh w (t_base m); Ok (w1, Ct (Some a) (t_base m)) else UB.
(** apop_model_copy (apop_model.m4.c:155-178): the parameters are copied; the settings group is copied by its fields, so that the base model is
    the same one (apop_coordinate_transform.c:18) *)
Definition ct_copy (w : world) (m : ctm) : res (world * ctm) :=
  match t_par m with
  | None => Ok (w, m)
  | Some a => do v <- read w a; let '(w1, a1) := alloc w v in Ok (w1, Ct (Some a1) (t_base m))
  end.
(** apop_estimate (229-235): the model has no estimate method; [found]: the parameters at which the search ends, which are put in the estimate's own
    parameters (apop_mle.m4.c:468, 524) *)
Definition ct_estimate (fresh found : list R) (group : bool) (w : world) (m : ctm) : res (world * ctm) :=
  do (w1, o) <- ct_copy w m;
  do (w2, o) <- ct_prep fresh group w1 o;
  match t_par o with Some a => do w3 <- write w2 a found; Ok (w3, o) | None => UB end.
(** the user reads or sets a model's parameters, or asks for a likelihood: ct_ll reads those of the base model (a base model without any: its
    likelihood returns NaN, so that nothing is read) *)
Definition params (w : world) (m : ctm) : res (option (list R)) := match t_par m with None => Ok None | Some a => do v <- read w a; Ok (Some v) end.
Definition set_params (w : world) (m : ctm) (v : list R) : res world := match t_par m with None => UB | Some a => write w a v end.
Definition ll_at (cs : cts) (w : world) (m : ctm) (d : page R) : res xr :=
  match bases w !! t_base m with
  | Some (Some a) => do v <- read w a; Ok (ct_ll (Some cs) v d)
  | Some None => Ok NaN
  | None => UB
  end.
(** apop_model_free (55-71): parameters and settings, not the base model; freeing twice is undefined *)
Definition ct_free (w : world) (m : ctm) : res world :=
  match t_par m with
  | None => Ok w
  | Some a => match blocks w !! a with Some (Some _) => Ok (Wd (<[a := None]> (blocks w)) (bases w)) | _ => UB end
  end.
