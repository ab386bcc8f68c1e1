(** Model of model/apop_ols.c: apop_ols (prep, estimate, log likelihood, score, predict) and apop_iv.
    Doubles are reals; GSL's LU inversion and Householder solver are parameters ([None]: a GSL error).  Weights are not negative
    (C gives NaN where [sqrt] here gives 0).  The model's data set has one page. *)
From Coq Require Import Reals.
From Verif Require Import DataModel NamesModel StatsModel LinModel FactModel LikeModel.
Local Open Scope list_scope.
Local Open Scope nat_scope.

Fixpoint set_col (j : nat) (x : R) (rows : list (list R)) : list (list R) := match rows with [] => [] | r :: rs => <[j := x]> r :: set_col j x rs end.
Definition get_col (m : grid R) (j : nat) : list R := map (fun r => nth j r 0%R) (ga m).
(** the names after sprintf(d->names->col[0], "1"): the new name is written over the old; an old name without a letter has no room for it *)
Definition rename_col0 (n : names) : res names :=
  match coln n with
  | [] => Ok n
  | c :: r => if (String.length c =? 0) then UB
              else let n := add1 n c "v" in Ok (Nm (title n) (vecn n) (rown n) ("1" :: r)%string (txtn n) (rowh n) (colh n) (txth n))
  end.
(** 97-108, ols_shuffle.  The hash of the renamed column (colh) is left as it was, as in the code. *)
Definition ols_shuffle (d : page R) : res (page R) :=
  match vect d, mat d with
  | Some _, _ => Ok d
  | None, None => UB
  | None, Some m => if (gc m =? 0) then UB else
      do n <- rename_col0 (nms d);
      Ok (set_nms (set_mat (set_vec d (Some (get_col m 0))) (Some (Gr (gr m) (gc m) (set_col 0 1%R (ga m))))) n)
  end.
(** 110-122, ols_prep for a model not yet prepared: the data, or the error *)
Definition ols_prep (d : page R) : res (page R * option ascii) :=
  match vect d, mat d with None, None => Ok (d, Some "d"%char) | _, _ => do d' <- ols_shuffle d; Ok (d', None) end.

(** what the estimate has stored: nothing, a place without contents, or a value *)
Inductive stored (A : Type) := Absent | Uninit | Is (a : A).
Arguments Absent {A}. Arguments Uninit {A}. Arguments Is {A}.
(** apop_lm_settings (64-69: each y or n) and apop_parts_wanted_settings (each y or n; apop_mle.m4.c:43-48), if any *)
Record lm := Lm { want_cov : bool; want_exp : bool; destroy : bool; parts : option (bool * bool) }.
Definition pwc (s : bool * bool) := fst s.
Definition pwp (s : bool * bool) := snd s.
Record ols_est := OE {
  e_data : page R;                                        (* est->data, the user's *)
  e_beta : list R; e_names : names;                       (* est->parameters *)
  e_cov : stored (option (grid R));                       (* the page of covariances; [Is None]: not finite numbers *)
  e_s2 : stored (option R);                               (* the page of the error variance *)
  e_pred : stored (list R * list R * list R);             (* the page of predictions, by columns *)
  e_pnames : list string }.                               (* and its column names *)
Definition scale_rows (s : list R) (m : grid R) : grid R := Gr (gr m) (gc m) (zip_with (fun c r => map (fun x => (x * c)%R) r) s (ga m)).
Definition the_vec (o : option (page R)) : res (list R) := match o with Some p => match vect p with Some v => Ok v | None => UB end | None => UB end.
Definition the_mat (o : option (page R)) : res (grid R) := match o with Some p => match mat p with Some m => Ok m | None => UB end | None => UB end.
Definition of_mat (m : grid R) : page R := Pg None (Some m) None None name_alloc None.
Definition of_vec (v : list R) : page R := Pg (Some v) None None None name_alloc None.
(** gsl_vector_sub, gsl_vector_mul and the like check the lengths; the default GSL handler ends the program *)
Definition vzip (f : R -> R -> R) (a b : list R) : res (list R) := if length a =? length b then Ok (zip_with f a b) else UB.

Section ols.
  Context (linv : grid R -> option (grid R)) (hh : grid R -> list R -> option (list R)).
  (** 208-243, xpxinvxpy: parameters, covariance, error variance, predictions.  [has_pred]: there is a page of predictions.
      A failed inversion leaves no matrix, so that apop_dot returns NULL, to be read by the next apop_dot.
      The subtraction of 228 is of unsigned integers; with fewer rows than columns the result here is [None]. *)
  Definition xpxinvxpy (data : page R) (xpx : grid R) (xpy : list R) (s : lm) (has_pred : bool) : res (list R * stored (option (grid R)) * stored (option R) * stored (list R * list R * list R)) :=
    if match parts s with Some p => negb (pwc p) && negb (pwp p) | None => negb (want_cov s) && negb (want_exp s) end then
      match hh xpx xpy with Some b => Ok (b, if match parts s with Some _ => true | None => want_cov s end then Uninit else Absent, Absent, if has_pred then Uninit else Absent) | None => UB end
    else
      match linv xpx with
      | None => UB
      | Some inv =>
          do beta <- the_vec (apop_dot (of_mat inv) (of_vec xpy) "000" "000");
          do fit <- the_vec (apop_dot data (of_vec beta) "000" "000");
          match vect data, mat data with
          | Some y, Some m =>
            do error <- vzip Rminus fit y;
            let sse := ddot_loop error error 0%R in
            let s2 := if (gr m <? gc m) then None else cdiv sse (INR (gr m - gc m)) in
            let cov := match s2 with None => None | Some q => Some (Gr (gr inv) (gc inv) (map (map (fun x => (x * q)%R)) (ga inv))) end in
            (* 230: with settings of either kind the characters tested are never zero *)
            if has_pred then Ok (beta, Is cov, Is s2, Is (y, zip_with Rplus y error, error)) else UB
          | _, _ => UB end
      end.
  (** 72-95, prep_names: title, vector and row names of the parameters; column names of the predictions *)
  Definition prep_names (dn : names) (n : names) : names :=
    match vecn dn with
    | None => n
    | Some v => add_all (add1 (add1 n ("Regression of " ++ v)%string "h") "parameters" "v") (coln dn) "r"
    end.
  Definition pred_names (dn : names) : list string := [match coln dn with c :: _ => c | [] => "Observed"%string end; "Predicted"%string; "Residual"%string].
  (** 307-336, apop_estimate_OLS up to prep_names (the rest: [ols_ll] and FactModel's [r_squared]).  destroy: the data and its weights are overwritten. *)
  Definition estimate_ols (inset : page R) (s : lm) : res ols_est :=
    do set <- match wts inset with
      | None => Ok inset
      | Some w => match vect inset, mat inset with
        | Some y, Some m => let q := map R_sqrt.sqrt w in
            do y' <- vzip Rmult y q;
            if length q =? gr m then Ok (set_wts (set_mat (set_vec inset (Some y')) (Some (scale_rows q m))) (Some (if destroy s then q else w))) else UB
        | _, _ => UB end
      end;
    let has_pred := match parts s with Some _ => true | None => want_exp s end in
    do xpx <- the_mat (apop_dot set set "t" "000");
    do xpy <- the_vec (apop_dot set set "t" "v");
    do (beta, cov, s2, pred) <- xpxinvxpy set xpx xpy s has_pred;
    Ok (OE (if destroy s then set else inset) beta (prep_names (nms inset) name_alloc) cov s2 pred (pred_names (nms inset))).
  (** 129-172, ols_log_likelihood of the data [d] ([same]: it is the data of the estimate), with the improper uniform as the distribution of the inputs (apop_p: 1).
      The logarithm is of gsl_ran_gaussian_pdf, exp(-x^2/2 sigma^2)/(sqrt(2 pi) sigma), times the weight; [None]: not a finite number. *)
  Definition gaussian_pdf (x sigma : R) : R := (1 / (R_sqrt.sqrt (2 * PI) * Rabs sigma) * exp (- (x / sigma) * (x / sigma) / 2))%R.
  Definition errors_of (d : page R) (beta : list R) : res (list R) :=
    match mat d with
    | None => UB
    | Some m => all_res (imap (fun i r => if negb (length r =? length beta) then UB else
        let expected := ddot_loop beta r 0%R in
        match vect d with
        | Some y => match y !! i with Some a => Ok (expected - a)%R | None => UB end
        | None => match r, beta with a :: _, b :: _ => Ok (expected + b * (1 - a) - a)%R | _, _ => UB end
        end) (ga m))
    end.
  Definition ols_ll (d : page R) (same : bool) (e : ols_est) : res (option R) :=
    match mat d with
    | None => Ok None
    | Some m =>
      do errors <- (if same then match e_pred e with
                      | Is (_, _, c) => Ok (take (gr m) c ++ replicate (gr m - length c) 0%R)
                      | Uninit => UB
                      | Absent => errors_of d (e_beta e) end else errors_of d (e_beta e));
      do sigma2 <- match e_s2 e with Is v => Ok v | Uninit => UB | Absent => Ok (vector_var errors None) end;
      match sigma2 with
      | None => Ok None
      | Some v => if Rlt_dec 0 v then
          do ws <- match wts d with None => Ok (replicate (gr m) 1%R) | Some w => if length w =? gr m then Ok w else UB end;
          Ok (fold_left (fun a '(x, w) => match a with None => None | Some s => if Rlt_dec 0 w then Some (s + ln (gaussian_pdf x (R_sqrt.sqrt v) * w * 1))%R else None end) (combine errors ws) (Some 0%R))
        else Ok None
      end
    end.
  (** 175-205, ols_score, [None]: not a number *)
  Definition ols_score (d : page R) (beta : list R) : res (option (list R)) :=
    match mat d with
    | None => UB
    | Some m =>
      do errors <- errors_of d beta;
      match vector_var errors None with
      | None => Ok None
      | Some v => match csqrt v with None => Ok None | Some sigma =>
          if Req_EM_T sigma 0 then Ok None else
          do ws <- match wts d with None => Ok (replicate (gr m) 1%R) | Some w => if length w =? gr m then Ok w else UB end;
          Ok (Some (map (fun j => fold_left (fun g '(r, x, w) => (g + w * nth j r 0 * fst (normal_score 0 sigma (Pg None (Some (Gr 1 1 [[x]])) None None name_alloc None)))%R) (combine (combine (ga m) errors) ws) 0%R) (seq 0 (gc m))))
        end
      end
    end.
  (** 359-366, ols_predict: the vector is overwritten *)
  Definition ols_predict (d : page R) (beta : list R) : res (page R) :=
    do d <- match vect d with Some _ => Ok d | None => ols_shuffle d end;
    match mat d, vect d with
    | Some m, Some y => match dgemv false m beta with Some v => if length y =? gr m then Ok (set_vec d (Some v)) else UB | None => UB end
    | _, _ => UB
    end.

  (** 427-445, prep_z; columns by number, if the instruments have a vector, else by name.  [UB]: out of range, or the assertions of 438 and 442, which return NULL, read by the caller.
      A column number is a double, cut to an integer; here it is whole and not negative.  The vector of the result, overwritten when the name is the vector's ([None] in [copy_cols]), is of no use later. *)
  Fixpoint put_col (j : nat) (c : list R) (rows : list (list R)) : list (list R) := match rows, c with r :: rs, x :: c => <[j := x]> r :: put_col j c rs | _, _ => [] end.
  Definition copy_col (z : grid R) (inst : option (grid R)) (from to : nat) : res (grid R) :=
    match inst with
    | None => UB
    | Some m => if (from <? gc m) && (to <? gc z) && (gr m =? gr z) then Ok (Gr (gr z) (gc z) (put_col to (get_col m from) (ga z))) else UB
    end.
  Fixpoint copy_cols (z : grid R) (inst : option (grid R)) (i : nat) (l : list (option nat)) : res (grid R) :=
    match l with
    | [] => Ok z
    | Some t :: l => do z <- copy_col z inst i t; copy_cols z inst (S i) l
    | None :: l => do _ <- copy_col z inst i 0; copy_cols z inst (S i) l
    end.
  Record instruments := Inst { i_cols : option (list nat); i_mat : option (grid R); i_names : list string }.
  Definition prep_z (xn : names) (x : grid R) (inst : instruments) : res (grid R) :=
    match i_cols inst, i_names inst with
    | Some l, _ => copy_cols x (i_mat inst) 0 (map Some l)
    | None, [] => UB
    | None, cs => do l <- all_res (map (fun c => do j <- name_find xn c "c"; if (j =? -2)%Z then UB else Ok (if (j <? 0)%Z then None else Some (Z.to_nat j))) cs); copy_cols x (i_mat inst) 0 l
    end.
  (** 447-518, apop_estimate_IV: the parameters, the covariance, the error variance, the predictions, and the parameters' names.  Without instruments OLS is run, and then prep_z reads NULL.
      The page of predictions is always there, the settings being y or n.  prep_names (469) names the empty parameters made in 456; they are freed in xpxinvxpy, except when nothing but the parameters is wanted.
      That case ends with the covariance read through NULL: apop_dot returns NULL (1) and apop_data_add_page of NULL does nothing, so it succeeds. *)
  Definition estimate_iv (inset : page R) (inst : option instruments) (s : lm) : res (list R * stored (option (grid R)) * stored (option R) * stored (list R * list R * list R)) :=
    match inst, mat inset with
    | None, _ | _, None => UB
    | Some inst, Some x =>
      do set <- match wts inset with
        | None => Ok inset
        | Some w => match vect inset, mat inset with
          | Some y, Some m => let q := map R_sqrt.sqrt w in
              do y' <- vzip Rmult y q;
              if length q =? gr m then Ok (set_wts (set_mat (set_vec inset (Some y')) (Some (scale_rows q m))) (Some (if destroy s then q else w))) else UB
          | _, _ => UB end
        end;
      do z <- prep_z (nms inset) x inst;
      let zp := set_mat inset (Some z) in
      do zpx <- the_mat (apop_dot zp set "t" "000");
      do zpy <- the_vec (apop_dot zp set "t" "v");
      do (beta, cov, s2, pred) <- xpxinvxpy (if destroy s then set else inset) zpx zpy s true;
      do zpz <- the_mat (apop_dot zp zp "t" "000");
      match cov with
      | Is (Some c) => match linv zpx with
          | None => UB
          | Some inv => do half <- the_mat (apop_dot (of_mat zpz) (of_mat inv) "000" "t"); do c' <- the_mat (apop_dot (of_mat c) (of_mat half) "000" "000"); Ok (beta, Is (Some c'), s2, pred)
          end
      | Is None => Ok (beta, cov, s2, pred)
      | _ => Ok (beta, Absent, s2, pred)
      end
    end.
End ols.

(** apop_regression.m4.c:8-35, apop_estimate_parameter_tests of an OLS estimate: p value and confidence by parameter, the parameter models being those of apop_ols.c:368-377 and the
    cumulative distribution that of apop_t.c:49-56.  [tcdf]: gsl_cdf_tdist_P.  [rows]: of the matrix.  [None]: not a number *)
Definition tests_df (rows vsize k : nat) : Z := let df := (Z.of_nat (if (rows =? 0)%nat then vsize else rows) - Z.of_nat k)%Z in if (df <? 1)%Z then 1%Z else df.
Definition one_test (tcdf : R -> Z -> R) (mu var : R) (df : Z) : option (R * R) :=
  match csqrt var with
  | None => None
  | Some sigma => match cdiv (0 - mu)%R sigma with None => None | Some x => let conf := (2 * Rabs (0.5 - tcdf x df))%R in Some (1 - conf, conf)%R end
  end.
Definition parameter_tests (tcdf : R -> Z -> R) (rows vsize : nat) (beta : list R) (cov : grid R) : list (option (R * R)) :=
  imap (fun i b => match cell cov i i with Some v => one_test tcdf b v (tests_df rows vsize (length beta)) | None => None end) beta.
