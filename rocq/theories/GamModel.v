(** Model of the estimates, cdfs and draws of the Gamma, Beta, Exponential and Bernoulli models (model/apop_gamma.c, apop_beta.c, apop_exponential.c,
    apop_bernoulli.c).  Doubles are reals; where they may be NaN or infinite an [option] ([None]).  The library's distribution functions are parameters. *)
From Coq Require Import Reals.
From Verif Require Import DataModel StatsModel ConvModel LikeModel.
Local Open Scope list_scope.
Local Open Scope R_scope.

(** apop_gamma.c:97-104, apop_beta.c:20-30: means and variances of the parts (zero for one that is not there), and their sum with the weights [wv], [wm] *)
Definition part_moments (wv wm : R) (p : page R) : option (R * option R) :=
  let vmean := if (vsz p =? 0)%nat then Some 0 else vector_mean (vcells p) None in
  let vvar := if (vsz p =? 0)%nat then Some 0 else vector_var (vcells p) None in
  let mmean := if (msz1 p =? 0)%nat then 0 else fst (matrix_mean_and_var (mat p)) in
  let mvar := if (msz1 p =? 0)%nat then Some 0 else snd (matrix_mean_and_var (mat p)) in
  try vm <- vmean; Some (mmean * wm + vm * wv, try mv <- mvar; try vv <- vvar; Some (mv * wm + vv * wv)).
(** apop_gamma.c:96-107 gamma_est; tsize is not zero *)
Definition gamma_estimate (p : page R) : option R * option R :=
  let n := INR (tsize p) in
  match part_moments (INR (vsz p) / n) (INR (msz1 p * msz2 p) / n) p with
  | None => (None, None)
  | Some (mean, var) => (try v <- var; cdiv (mean ^ 2) v, try v <- var; cdiv v mean)
  end.
(** apop_beta.c:19-37 beta_estimate.  29-30: the weights are quotients of ints; tsize zero divides an int by zero: [UB] *)
Definition beta_estimate (p : page R) : res (option R * option R) :=
  if (tsize p =? 0)%nat then UB else
  match part_moments (INR (vsz p / tsize p)) (INR ((msz1 p * msz2 p) / tsize p)) p with
  | None => Ok (None, None)
  | Some (mean, var) =>
      let alpha := try v <- var; try k1 <- cdiv (1 - mean) v; try k2 <- cdiv 1 mean; Some (mean ^ 2 * (k1 - k2)) in
      Ok (alpha, try a <- alpha; cdiv (a * (1 - mean)) mean)
  end.
(** apop_bernoulli.c:38-39, the element of the covariance page *)
Definition bernoulli_page (q : R) : R := q * (1 - q).

(** apop_data_get(d, 0, vsize ? -1 : 0), apop_data_get(d), apop_data_get(d, .col=firstcol); that the element is not there is not modelled ([None]) *)
Definition number_at (p : page R) (col : Z) : option R := match get_at p 0 col with Got x => Some x | _ => None end.
Definition vec_first (p : page R) : Z := (if (vsz p =? 0)%nat then 0 else -1)%Z.
Definition firstcol (p : page R) : Z := match vect p with Some _ => (-1)%Z | None => 0%Z end.
Section cdfs.
Context (gammaP betaP : R -> R -> R -> R) (expP : R -> R -> R).
(** apop_gamma.c:76-83 *)
Definition gamma_cdf (a b : R) (p : page R) : option R := try x <- number_at p (vec_first p); Some (gammaP x a b).
(** apop_beta.c:82-88 *)
Definition beta_cdf (a b : R) (p : page R) : option R := try x <- number_at p 0; Some (betaP x a b).
(** apop_exponential.c:59-65 *)
Definition expo_cdf (mu : R) (p : page R) : option R := try x <- number_at p (vec_first p); Some (expP x mu).
End cdfs.
(** apop_bernoulli.c:55-66 *)
Definition bernoulli_cdf (q : R) (p : page R) : option R :=
  try x <- number_at p (firstcol p); Some (if Rlt_dec x 0 then 0 else if Rlt_dec x 1 then 1 - q else 1).
(** 50-53, for a uniform draw [u] *)
Definition bernoulli_draw (q u : R) : R := if Rlt_dec u q then 1 else 0.
(** apop_beta.c:90-99: draws of gsl_ran_beta until one is inside; gsl_ran_beta's are a stream; [Fuel]: none of those given is.  GSL_DBL_EPSILON is [eps]. *)
Fixpoint beta_draw (eps : R) (tape : list R) : res R :=
  match tape with
  | [] => Fuel
  | x :: tape' => if Rlt_dec 0 x then if Rle_dec eps (1 - x) then Ok x else beta_draw eps tape' else beta_draw eps tape'
  end.
