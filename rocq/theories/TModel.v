(** Model of model/apop_t.c.  Doubles are reals; where they may be NaN or infinite an [option] ([None]).  gsl_ran_tdist_pdf, gsl_cdf_tdist_P and
    gsl_ran_tdist are parameters. *)
From Coq Require Import Reals.
From Verif Require Import DataModel StatsModel ConvModel LikeModel.
Local Open Scope list_scope.
Local Open Scope R_scope.

(** 8-21: the three numbers.  tsize, vsize, msize1 and msize2 are ints (no overflow modelled). *)
Definition t_numbers (d : page R) : option R * option R * R :=
  let n := INR (tsize d) in
  let vsize := INR (vsz d) in
  let msize := INR (msz1 d * msz2 d) in
  let vmu := if (vsz d =? 0)%nat then Some 0 else vector_mean (vcells d) None in
  let vss := if (vsz d =? 0)%nat then Some 0 else try s <- vector_var (vcells d) None; Some (s * (vsize - 1)) in
  let mmu := if (msz1 d =? 0)%nat then 0 else fst (matrix_mean_and_var (mat d)) in
  let mss := if (msz1 d =? 0)%nat then Some 0 else try s <- snd (matrix_mean_and_var (mat d)); Some (s * (msize - 1)) in
  (try a <- vmu; cdiv (a * vsize + mmu * msize) n,
   try a <- vss; try b <- mss; try f <- cdiv (n - 3) (n - 1); try q <- cdiv (f * (a + b)) (n - 1); csqrt q,
   n - 1).
(** apop_data_alloc(3, 0, 0), by apop_prep (apop_model_clear, apop_model.m4.c:32-33) for a model without parameters; [g]: what the allocated memory holds *)
Definition t_fresh (g : option R) : page (option R) := Pg (Some [g; g; g]) None None None name_alloc None.
(** apop_t_estimate, 19-21, on the parameters there are *)
Definition t_estimate (g : option R) (par : page (option R)) (d : page R) : page (option R) :=
  let '(mu, sigma, df) := t_numbers d in
  add_named_elmt g (add_named_elmt g (add_named_elmt g par "μ" mu) "σ" sigma) "df" (Some df).
(** apop_estimate (apop_model.m4.c:229-235) of a t model with the given parameters (None: NULL): those of the copy that is returned *)
Definition estimate_t (g : option R) (par : option (page (option R))) (d : page R) : page (option R) :=
  t_estimate g (match par with None => t_fresh g | Some p => p end) d.
(** m->parameters->vector->data[0..2], as the likelihood, the draws and the cdf read them *)
Definition t_read (par : page (option R)) : option (list (option R)) := try v <- vect par; Some (take 3 v).

Section T.
Context (tpdf tcdf : R -> R -> R).
(** 25-38 *)
Definition one_t (mu sigma df x : R) : R := ln (tpdf ((x - mu) / sigma) df).
Definition t_ll (mu sigma df : R) (d : page R) : R := mapsum (one_t mu sigma df) d - INR (tsize d) * ln sigma.
(** 49-56: the number in the vector if there is one, else in the matrix *)
Definition t_cdf (mu sigma df : R) (d : page R) : option R :=
  match vect d with
  | Some v => try x <- v !! 0%nat; Some (tcdf ((x - mu) / sigma) df)
  | None => try m <- mat d; try r <- ga m !! 0%nat; try x <- r !! 0%nat; Some (tcdf ((x - mu) / sigma) df)
  end.
End T.
(** 40-47, for a draw [t] of gsl_ran_tdist(r, df) *)
Definition t_draw (mu sigma t : R) : R := t * sigma + mu.
