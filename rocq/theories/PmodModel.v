(** Model of apop_parameter_model (apop_model.m4.c:356-396) for a model without a special case in the vtable.  Doubles are reals.  The bootstrap's
    covariance matrix (ResampModel.v) and the estimates of a stochastic model are inputs. *)
From Coq Require Import Reals.
From Verif Require Import DataModel PackModel MvnModel.
Local Open Scope list_scope.
Local Open Scope nat_scope.

(** what is handed back: a multivariate Normal (its dsize, means and covariances), a Normal (mean, standard deviation; None: NaN, from a position that
    is not there), or a PMF over the rows of a matrix, or over the elements of a vector *)
Inductive pmodel := PMulti (dsize : nat) (mean : list R) (cov : grid R) | PNormal (mean sd : option R) | PRows (rows : list (list R)) | PNumbers (l : list R).
(** Get_vmsizes(m->parameters), 363 and 379: the size used for the parameters of the first page *)
Definition pm_size (par : list (page R)) : nat := match par with [] => 0 | p :: _ => vsz p + msz1 p + msz2 p end.
(** apop_data_get(out->parameters, index, -1) and (.., index, index) *)
Definition at_v (v : list R) (i : nat) : option R := v !! i.
Definition at_m (m : grid R) (i j : nat) : option R := match ga m !! i with Some r => r !! j | None => None end.
(** 362-377, data given.  index -1 or at least zero (other negative ones are not modelled).  [g]: what allocated memory holds.  367: NULL
    from apop_data_pack, [None], for parameters without any numbers: the NULL vector is read when the model is used, [UB]. *)
Definition pm_data (g : R) (par : list (page R)) (cov : grid R) (index : option nat) : res pmodel :=
  do v <- data_pack g par None "y" "n";
  match v with
  | None => UB
  | Some v => match index with None => Ok (PMulti (pm_size par) v cov) | Some i => Ok (PNormal (at_v v i) (at_m cov i i)) end
  end.
(** 379-385, no data: the rows of param_draws, one for each estimate; a row is left as it is if apop_data_pack refuses it (what it returns is ignored) *)
Fixpoint pm_fill (g : R) (size : nat) (ests : list (list (page R))) : res (list (list R)) :=
  match ests with
  | [] => Ok []
  | e :: ests' => do v <- data_pack g e (Some (replicate size g)) "y" "n";
                  do rest <- pm_fill g size ests'; Ok (match v with Some v => v | None => replicate size g end :: rest)
  end.
(** 379-395.  390-391: a column past the matrix is NULL, and read *)
Definition pm_draws (g : R) (par : list (page R)) (ests : list (list (page R))) (index : option nat) : res pmodel :=
  let size := pm_size par in
  do rows <- pm_fill g size ests;
  match index with
  | None => Ok (PRows rows)
  | Some i => if i <? size then Ok (PNumbers (map (fun r => nth i r g) rows)) else UB
  end.
