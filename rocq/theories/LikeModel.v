(** Model of the log likelihoods, scores and closed-form estimates of some stock models (directory model/) and of the conjugate
    table of apop_update.m4.c.  Doubles are reals; [ln] is log, which the theorems use for positive arguments only (log of zero
    or of a negative number is not modelled, except where an [option] shows it).  gsl_sf_lngamma, gsl_sf_psi and gsl_sf_lnfact
    are parameters.  The data set is one page: apop_map_sum, apop_sum and the likelihoods do not look at further pages. *)
From Coq Require Import Reals.
From Verif Require Import DataModel StatsModel ConvModel.
Local Open Scope list_scope.
Local Open Scope R_scope.

(** the numbers of a data set: vector, then matrix row by row *)
Definition vcells (p : page R) : list R := match vect p with Some v => v | None => [] end.
Definition mcells (p : page R) : list R := match mat p with Some m => concat (ga m) | None => [] end.
Definition cells (p : page R) : list R := vcells p ++ mcells p.
(** apop_internal.h:8-16 Get_vmsizes: tsize (vsz, msz1, msz2, maxsize: DataModel.v) *)
Definition tsize (p : page R) : nat := (vsz p + msz1 p * msz2 p)%nat.
(** apop_map_sum(d, fn_d or fn_dp) with the default part: the sum over all cells (MapModel.v, theorem C21_map_sum; LikeProps.v
    shows that it is the same) *)
Definition mapsum (f : R -> R) (p : page R) : R := vector_sum (map f (cells p)).
(** (d->matrix ? apop_matrix_sum(d->matrix) : 0) + (d->vector ? apop_sum(d->vector) : 0), apop_exponential.c:34,43 *)
Definition both_sum (p : page R) : R :=
  match mat p with Some m => matrix_sum m | None => 0 end + match vect p with Some v => vector_sum v | None => 0 end.
(** M_LNPI, M_LN2 *)
Definition ln2pi_half : R := (ln PI + ln 2) / 2.

(** model/apop_normal.c:42-50, 108-119 *)
Definition normal_ll (mu sd : R) (p : page R) : R :=
  - mapsum (fun x => (x - mu) ^ 2) p / (2 * sd ^ 2) - INR (tsize p) * (ln2pi_half + ln sd).
Definition normal_score (mu sd : R) (p : page R) : R * R :=
  (mapsum (fun x => x - mu) p / sd ^ 2, mapsum (fun x => (x - mu) ^ 2) p / sd ^ 3 - INR (tsize p) / sd).
(** model/apop_normal.c:52-83 get_mu_var and the parameters normal_estimate sets, for data in one part only (the variance of
    data in both parts, 71-75, is not modelled: [None]) *)
Definition get_mu_var (p : page R) : option (R * R) :=
  match vect p, mat p with
  | Some v, None => try m <- vector_mean v None; try s <- vector_var v None;
                    Some (0 * (INR 0 / INR (tsize p)) + m * (INR (vsz p) / INR (tsize p)), s)
  | None, Some m => let (mu, var) := matrix_mean_and_var (Some m) in
                    try s <- var; Some (mu * (INR (msz1 p * msz2 p) / INR (tsize p)) + 0 * (INR 0 / INR (tsize p)), s)
  | _, _ => None
  end.
Definition normal_estimate (p : page R) : option (R * R) := try (mu, var) <- get_mu_var p; try sd <- csqrt var; Some (mu, sd).
(** model/apop_normal.c:167-181, 226-236 *)
Definition lognormal_ll (mu sd : R) (p : page R) : R :=
  - mapsum (fun x => (ln x - mu) ^ 2) p / (2 * sd ^ 2) - mapsum ln p - INR (tsize p) * (ln2pi_half + ln sd).
Definition lognormal_score (mu sd : R) (p : page R) : R * R :=
  ((mapsum ln p - mu * INR (tsize p)) / sd ^ 2, mapsum (fun x => (ln x - mu) ^ 2) p / sd ^ 3 - INR (tsize p) / sd).
(** model/apop_exponential.c:30-57; the estimate's nested conditional expression reads
    vsize ? vsize * mean : (0 + msize1 ? ... : 0) *)
Definition exponential_ll (mu : R) (p : page R) : R := - both_sum p / mu - INR (tsize p) * ln mu.
Definition exponential_score (mu : R) (p : page R) : R := both_sum p / mu ^ 2 - INR (tsize p) / mu.
Definition exponential_estimate (p : page R) : option R :=
  try s <- (if (vsz p =? 0)%nat then Some (if (msz1 p =? 0)%nat then 0 else INR (msz1 p * msz2 p) * matrix_mean (mat p))
            else try m <- vector_mean (vcells p) None; Some (INR (vsz p) * m));
  cdiv s (INR (tsize p)).
(** model/apop_poisson.c:14-28: a negative cell or one not within 1e-4 above a whole number gives minus infinity ([None]) *)
Section Like.
Context (lg psi : R -> R).    (* gsl_sf_lngamma, gsl_sf_psi *)
Definition poisson_bad (x : R) : bool := if Rlt_dec x 0 then true else if Rlt_dec (1 / 10000) (x - IZR (trunc x)) then true else false.
Definition poisson_one (ln_l x : R) : R := if Req_EM_T x 0 then 0 else ln_l * x - lg (x + 1).
Definition poisson_ll (lambda : R) (p : page R) : option R :=
  if existsb poisson_bad (cells p) then None else Some (mapsum (poisson_one (ln lambda)) p - INR (tsize p) * lambda).
(** 66-73; apop_matrix_sum(NULL) is 0 *)
Definition poisson_score (lambda : R) (p : page R) : R :=
  match mat p with Some m => matrix_sum m | None => 0 end / lambda - INR (tsize p).
(** 30-36 data_mean *)
Definition poisson_estimate (p : page R) : option R :=
  if negb (vsz p =? 0)%nat && (msz1 p =? 0)%nat then vector_mean (vcells p) None
  else if (vsz p =? 0)%nat && negb (msz1 p =? 0)%nat then Some (matrix_mean (mat p))
  else try a <- cdiv (matrix_mean (mat p) * INR (msz1 p * msz2 p)) (INR (tsize p));
       try m <- vector_mean (vcells p) None; try b <- cdiv (m * INR (vsz p)) (INR (tsize p)); Some (a + b).
(** model/apop_bernoulli.c:13-36 *)
Definition bernoulli_ll (q : R) (p : page R) : R := mapsum (fun x => if Req_EM_T x 0 then ln (1 - q) else ln q) p.
Definition nonzero (x : R) : R := if Req_EM_T x 0 then 0 else 1.
Definition bernoulli_estimate (p : page R) : option R := cdiv (mapsum nonzero p) (INR (tsize p)).
(** model/apop_gamma.c:32-66 *)
Definition gamma_one (a b x : R) : R := if Req_EM_T x 0 then 0 else (a - 1) * ln x - x / b - (lg a + a * ln b).
Definition gamma_ll (a b : R) (p : page R) : R := mapsum (gamma_one a b) p.
Definition gamma_score (a b : R) (p : page R) : R * R :=
  (mapsum (fun x => ln x - (psi a + ln b)) p, mapsum (fun x => x / b ^ 2 - a / b) p).
(** model/apop_beta.c:46-75; gsl_sf_lnbeta(a,b) = lngamma a + lngamma b - lngamma (a+b) for positive a, b *)
Definition lnbeta (a b : R) : R := lg a + lg b - lg (a + b).
Definition beta_one (a b x : R) : R := if Rlt_dec x 0 then 0 else if Rlt_dec 1 x then 0 else (a - 1) * ln x + (b - 1) * ln (1 - x).
Definition beta_ll (a b : R) (p : page R) : R := mapsum (beta_one a b) p - lnbeta a b * INR (tsize p).
Definition beta_score (a b : R) (p : page R) : R * R :=
  (mapsum ln p + (psi (a + b) - psi a) * INR (tsize p), mapsum (fun x => ln (1 - x)) p + (psi (a + b) - psi b) * INR (tsize p)).
(** model/apop_yule.c:30-61 *)
Definition yule_one (bb pt : R) : R := (if Rle_dec 1 pt then lg pt else 0) - lg (pt + bb).
Definition yule_ll (bb : R) (p : page R) : R := mapsum (yule_one bb) p + (ln (bb - 1) + lg bb) * INR (tsize p).
Definition yule_score (bb : R) (p : page R) : R := mapsum (fun pt => - psi (pt + bb)) p + (1 / (bb - 1) + psi bb) * INR (tsize p).
(** model/apop_multinomial.c:87-112 for two parameters (n, q), the binomial.  The rows of the matrix are mapped (the default
    part for a function of a vector); n = 2 takes gsl_ran_binomial_pdf(hits, q, 2), any other n gsl_ran_multinomial_lnpdf with the
    probabilities 1-q, q and the row converted to unsigned integers.  [lf]: gsl_sf_lnfact; [UB]: a row too short.  GSL:
    lnpdf = lnfact(N) + sum over k with n_k > 0 of log(p_k/norm)*n_k - lnfact(n_k); binomial_pdf: k > n gives 0 (log: minus
    infinity, [None]), else exp of lnchoose(n,k) + k*log q + (n-k)*log(1-q), for 0 < q < 1. *)
Context (lf : nat -> R).
Definition hits (x : R) : nat := Z.to_nat (trunc x).
Definition mult_term (prob : R) (k : nat) : R := if (0 <? k)%nat then ln (prob / ((1 - prob) + prob)) * INR k - lf k else 0.
Definition binom_row (n q : R) (r : list R) : res (option R) :=
  match r with
  | x0 :: x1 :: _ =>
    if Req_EM_T n 2 then
      Ok (if (2 <? hits x1)%nat then None
          else Some (lf 2 - lf (hits x1) - lf (2 - hits x1) + INR (hits x1) * ln q + INR (2 - hits x1) * ln (1 - q)))
    else Ok (Some (lf (hits x0 + hits x1) + mult_term (1 - q) (hits x0) + mult_term q (hits x1)))
  | _ => UB
  end.
Fixpoint binom_rows (n q : R) (rows : list (list R)) : res (option R) :=
  match rows with
  | [] => Ok (Some 0)
  | r :: rows' => do a <- binom_row n q r; do b <- binom_rows n q rows'; Ok (try a <- a; try b <- b; Some (a + b))
  end.
Definition binomial_ll (n q : R) (p : page R) : res (option R) :=
  match mat p with Some m => binom_rows n q (ga m) | None => UB end.

(** ---- apop_update.m4.c:46-127, the conjugate table.  [prior]: the two parameters of the prior; [data]: NULL is [None];
    [like]: the likelihood's parameters (two numbers), if set; the result is the posterior's two parameters. ---- *)
(** apop_sum(Apop_cv(data, j)): a missing column sums to 0 *)
Definition col_sum (p : page R) (j : nat) : R :=
  match mat p with Some m => if (j <? gc m)%nat then vector_sum (colv m j) else 0 | None => 0 end.
Definition betabinom (data : option (page R)) (prior : R * R) (like : option (R * R)) : R * R :=
  match data, like with
  | None, Some (n, q) => (fst prior + n * q, snd prior + n * (1 - q))
  | None, None => (fst prior + 0, snd prior + 0)
  | Some d, _ => (fst prior + col_sum d 1, snd prior + col_sum d 0)
  end.
Definition betabernie (d : page R) (prior : R * R) : R * R :=
  let sum := mapsum nonzero d in (fst prior + sum, snd prior + (INR (tsize d) - sum)).
Definition gammaexpo (d : page R) (prior : R * R) : R * R :=
  (fst prior + INR (maxsize d),
   1 / (1 / snd prior + match mat d with Some m => matrix_sum m | None => 0 end + match vect d with Some v => vector_sum v | None => 0 end)).
Definition gammapoisson (d : page R) (prior : R * R) : R * R :=
  (fst prior + ((if (vsz d =? 0)%nat then 0 else vector_sum (vcells d)) +
                (if (msz1 d =? 0)%nat then 0 else match mat d with Some m => matrix_sum m | None => 0 end)),
   snd prior / (snd prior * INR (maxsize d) + 1)).
(** 102-127: data with no matrix: NULL is dereferenced; [None]: not finite *)
Definition normnorm (data : option (page R)) (prior : R * R) (like : option (R * R)) : res (option (R * R)) :=
  let '(mu0, sd0) := prior in
  let var0 := sd0 ^ 2 in
  do (mu, var, n) <- match data, like with
                     | None, Some (mu, sd) => Ok (mu, Some (sd ^ 2), 1%nat)
                     | Some d, _ => match mat d with
                                    | Some m => let (mu, var) := matrix_mean_and_var (Some m) in Ok (mu, var, (gr m * gc m)%nat)
                                    | None => UB end
                     | None, None => UB
                     end;
  Ok (try var <- var;
      if Req_EM_T var0 0 then None else if Req_EM_T var 0 then None else
      Some ((mu0 / var0 + INR n * mu / var) / (1 / var0 + INR n / var), Rpower (1 / var0 + INR n / var) (- (1 / 2)))).
End Like.

(** model/apop_uniform.c:18-53: [None]: minus infinity.  GSL's minimum and maximum: running, from the first element *)
Definition gsl_min (v : list R) : option R :=
  match v with [] => None | x :: _ => Some (fold_left (fun m y => if Rlt_dec y m then y else m) v x) end.
Definition omin (a b : option R) : option R :=
  match a, b with Some x, Some y => Some (if Rlt_dec x y then x else y) | Some x, None => Some x | None, o => o end.
Definition omax (a b : option R) : option R :=
  match a, b with Some x, Some y => Some (if Rlt_dec y x then x else y) | Some x, None => Some x | None, o => o end.
Definition getminmax (p : page R) : option R * option R :=
  (omin (gsl_min (mcells p)) (gsl_min (vcells p)), omax (gsl_max (mcells p)) (gsl_max (vcells p))).
(** min >= a && max <= b, where the minimum of nothing is +infinity and its maximum -infinity *)
Definition unif_covers (a b : R) (p : page R) : bool :=
  (match fst (getminmax p) with Some x => if Rle_dec a x then true else false | None => true end) &&
  (match snd (getminmax p) with Some x => if Rle_dec x b then true else false | None => true end).
Definition unif_ll (a b : R) (p : page R) : option R := if unif_covers a b p then Some (- ln (b - a) * INR (tsize p)) else None.
Definition unif_p (a b : R) (p : page R) : R := if unif_covers a b p then / (b - a) ^ tsize p else 0.
Definition uniform_estimate (p : page R) : option (R * R) :=
  match getminmax p with (Some a, Some b) => Some (a, b) | _ => None end.
(** 55-64, for the value [val]; 66-69, for a uniform draw [u] *)
Definition unif_cdf (a b val : R) : R := if Rle_dec val a then 0 else if Rle_dec b val then 1 else (val - a) / (b - a).
Definition uniform_rng (a b u : R) : R := u * (b - a) + a.
