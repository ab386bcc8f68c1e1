(** Model of what model/apop_normal.c has besides the likelihoods, scores and one-part estimates of LikeModel.v: estimates of data in any part, the
    covariance page, the prediction, cdfs and draws of the Normal and Lognormal.  Doubles are reals; where they may be NaN an [option] ([None]).
    gsl_cdf_gaussian_P and gsl_cdf_lognormal_P are parameters. *)
From Coq Require Import Reals.
From Verif Require Import DataModel StatsModel ConvModel LikeModel.
Local Open Scope list_scope.
Local Open Scope R_scope.

(** 69-72: the rows read are -1, 0, .., and the column is the zeroth.  A row that is not there (among them (size_t)-1) fails in GSL, which by default aborts
    the program: [UB].  A NaN, [None]. *)
Fixpoint cross_sq (p : page R) (mu : R) (rows : list Z) : res (option R) :=
  match rows with
  | [] => Ok (Some 0)
  | i :: rows' => match get_at p i 0 with
      | GotRange => UB
      | GotNaN => do _ <- cross_sq p mu rows'; Ok None
      | Got x => do s <- cross_sq p mu rows'; Ok (try s <- s; Some ((x - mu) ^ 2 + s)) end
  end.
(** 52-74 get_mu_var, for any data.  No parts: zero times zero over zero. *)
Definition mu_var (p : page R) : res (option (R * R)) :=
  match vect p, mat p with
  | None, None => Ok None
  | Some v, Some m =>
      match vector_mean v None with None => UB | Some vm =>   (* a vector has elements *)
        let n := INR (tsize p) in
        let mu := matrix_mean (Some m) * (INR (msz1 p * msz2 p) / n) + vm * (INR (vsz p) / n) in
        do s <- cross_sq p mu (map (fun i => Z.of_nat i - 1)%Z (seq 0 (S (msz2 p))));
        Ok (try s <- s; Some (mu, s / n)) end
  | _, _ => Ok (get_mu_var p)
  end.
(** 77-97 normal_estimate: mean and standard deviation, and the elements (0,0) and (1,1) of the covariance page; the others are zero *)
Definition est_normal (p : page R) : res (option (R * R) * (option R * option R)) :=
  do mv <- mu_var p;
  let n := INR (tsize p) in
  Ok (try (mu, var) <- mv; try sd <- csqrt var; Some (mu, sd),
      (try (mu, _) <- mv; cdiv mu n, try (_, var) <- mv; cdiv (2 * var ^ 2) (n - 1))).
(** 186-196 the copy with its logs: the vector's, and each column's of the matrix.  (apop_data_copy: DataModel.v) *)
Definition log_col (m : grid R) (i : nat) : grid R := Gr (gr m) (gc m) (map (alter ln i) (ga m)).
Definition log_data (p : page R) : page R :=
  Pg (match vect p with Some v => Some (map ln v) | None => None end)
     (match mat p with Some m => Some (if (msz2 p =? 0)%nat then m else fold_left log_col (seq 0 (msz2 p)) m) | None => None end)
     (wts p) (txt p) (nms p) (err p).
(** 184-206 lognormal_estimate; the first [None]: error 'd' *)
Definition est_lognormal (p : page R) : res (option (option (R * R))) :=
  match vect p, mat p with
  | None, None => Ok None
  | _, _ => do mv <- mu_var (log_data p);
            Ok (Some (try (mu, var) <- mv; Some (mu, if Rlt_dec var 0 then 0 else R_sqrt.sqrt var)))
  end.
(** 120-133 normal_predict: the mean, and the number on the <Covariance> page ([data]: m->data, NULL or the data last used) *)
Definition pred_normal (mu sd : R) (data : option (page R)) : R * option R :=
  (mu, match data with Some d => try r <- csqrt (INR (tsize d)); cdiv sd r | None => Some 0 end).
(** 217-224 lognormal_predict.  Nothing calls it: lognormal_prep registers the score only. *)
Definition pred_lognormal (mu sd : R) : R := exp (mu + sd ^ 2 / 2).

Section cdfs.
Context (gP : R -> R -> R) (lnP : R -> R -> R -> R).
(** 99-106, 208-215 *)
Definition the_number (p : page R) : option R := match get_at p 0 (if (vsz p =? 0)%nat then 0 else -1)%Z with Got x => Some x | _ => None end.
Definition normal_cdf (mu sd : R) (p : page R) : option R := try x <- the_number p; Some (gP (x - mu) sd).
Definition lognormal_cdf (mu sd : R) (p : page R) : option R := try x <- the_number p; Some (lnP x mu sd).
End cdfs.
(** 135-139, 238-242, [g] what gsl_ran_gaussian(r, sd) gave *)
Definition normal_draw (mu g : R) : R := g + mu.
Definition lognormal_draw (mu g : R) : R := exp (g + mu).
