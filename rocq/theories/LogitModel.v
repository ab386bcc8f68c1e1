(** Model of model/apop_probit.c: apop_logit (log likelihood, prediction, draws) and apop_probit (log likelihood, score).
    Doubles are reals; the data has been prepared (C75), so that outcomes are in the vector; [cats] is the vector of the page of categories that get_category_table finds.
    Left out: prep's starting point and names. *)
From Coq Require Import Reals.
From Verif Require Import DataModel StatsModel LinModel OlsModel PmfModel.
Local Open Scope list_scope.
Local Open Scope R_scope.

(** 229-233, find_index: i goes up while m[i] is something else and i < max; the end of the array is not tested *)
Fixpoint find_index (x : R) (m : list R) (max i : nat) : res nat :=
  match m with
  | [] => UB
  | c :: m' => if Req_EM_T x c then Ok i else if (i <? max)%nat then find_index x m' max (S i) else Ok i
  end.
(** gsl_vector_max: the first element, then each one that is greater *)
Fixpoint max_loop (m : R) (l : list R) : R := match l with [] => m | x :: l' => max_loop (if Rlt_dec m x then x else m) l' end.
Definition vector_max (l : list R) : res R := match l with [] => UB | x :: l' => Ok (max_loop x l') end.
(** 235-253, one_logit_row: the outcome and the row of the products with the parameters.  expl(-max) is finite here; in doubles it may be an infinity, and then
    the logarithm is replaced by -max. *)
Definition one_logit_row (y : R) (row cats : list R) : res R :=
  do index <- find_index y cats (length row) 0;
  do num <- match index with O => Ok 0 | S j => match row !! j with Some x => Ok x | None => UB end end;
  do max <- vector_max row;
  Ok (num - (max + ln (vector_sum (map (fun x => exp (x - max)) row) + exp (- max)))).
(** 255-266, multilogit_log_likelihood; rows are summed by apop_map_sum *)
Definition rows_with (y : list R) (rows : list (list R)) (f : R -> list R -> res R) : res (list R) :=
  all_res (imap (fun i r => match y !! i with Some a => f a r | None => UB end) rows).
Definition multilogit_ll (d par : page R) (cats : list R) : res R :=
  match vect d with
  | None => UB
  | Some y => do xb <- the_mat (apop_dot d par "000" "000"); do l <- rows_with y (ga xb) (fun a r => one_logit_row a r cats); Ok (vector_sum l)
  end.
(** 187-217, one row of multilogit_expected: the loop over the options, and the normalization; the row, and the best option.
    [cols]: the columns of the parameters *)
Fixpoint expected_loop (x : list R) (cols : list (list R)) (j : nat) (best : nat) (score : R) (row : list R) : nat * list R :=
  match cols with
  | [] => (best, row)
  | c :: cols' =>
    let term := ddot_loop x c 0 in
    if Rlt_dec score term then expected_loop x cols' (S j) j term (row ++ [exp term]) else expected_loop x cols' (S j) best score (row ++ [exp term])
  end.
Definition expected_row (x : list R) (cols : list (list R)) : nat * list R :=
  let '(best, row) := expected_loop x cols 1 0 0 [1] in
  (best, map (fun e => e * (1 / vector_sum row)) row).
(** the vector and the matrix of the prediction.  gsl_blas_ddot on different lengths ends the program. *)
Definition multilogit_expected (d par : page R) : res (list R * grid R) :=
  match mat d, mat par with
  | Some X, Some B => if (gc X =? gr B)%nat then
      let rows := map (fun x => expected_row x (map (get_col B) (seq 0 (gc B)))) (ga X) in
      Ok (map (fun r => INR (fst r)) rows, Gr (gr X) (S (gc B)) (map snd rows)) else UB
  | _, _ => UB
  end.
(** 327-356, logit_rng, from the inputs [x] drawn and a uniform [u]: the array [out] after the call.  The draw from the PMF is made with draw_index 'n' (apop_pmf.c:71),
    from a data set that has weights only (apop_pmf.c:175-187).  dsize is -1, so nothing is copied. *)
Definition logit_draw (x : list R) (par : page R) (u : R) (out : list R) : res (list R) :=
  do xb <- the_vec (apop_dot (of_vec x) par "000" "000");
  let e := map exp (0 :: xb) in
  let w := map (fun a => a * (1 / vector_sum e)) e in
  do k <- pmf_draw (length w) w u;
  match k with
  | None => Ok out
  | Some _ => let written := draw_out (None : option R) None in Ok (written ++ drop (length written) out)
  end.

Section probit.
  (** gsl_cdf_gaussian_P(.,1), gsl_ran_gaussian_pdf(.,1) *)
  Context (Phi phi : R -> R).
  (** 82-84 and 140-142 *)
  Definition clamp (n : R) : R := let n := if Req_EM_T n 0 then 1 / 10 ^ 10 else n in if Rlt_dec n 1 then n else 1 - 1 / 10 ^ 10.
  (** 81-86, biprobit_ll_row *)
  Definition biprobit_row (y : R) (row : list R) : res R :=
    match row with [] => UB | xb :: _ => let n := clamp (Phi (- xb)) in Ok (if Req_EM_T y 0 then ln n else ln (1 - n)) end.
  (** 89-96, biprobit_log_likelihood *)
  Definition biprobit_ll (y : list R) (d par : page R) : res R :=
    do xb <- the_mat (apop_dot d par "000" "000"); do l <- rows_with y (ga xb) biprobit_row; Ok (vector_sum l).
  (** 99 *)
  Definition unordered (val x : R) : R := if Req_EM_T x val then 1 else 0.
  (** 102-127, multiprobit_log_likelihood.  The calls of apop_log_likelihood in the loop find two categories on working_data (the page stays with the static data set;
      it is made by the first such call of all, and has two entries if that outcome takes both values). *)
  Fixpoint multiprobit_loop (y vals : list R) (d : page R) (B : grid R) (n i : nat) (ll : R) : res R :=
    match n with
    | O => Ok ll
    | S n' =>
      match vals !! i with
      | None => UB
      | Some val =>
        if (gc B <=? 1)%nat then UB else
        do l <- biprobit_ll (map (unordered val) y) d (of_mat (Gr (gr B) 1 (map (fun x => [x]) (get_col B 1))));
        multiprobit_loop y vals d B n' (S i) (ll + l)
      end
    end.
  Definition multiprobit_ll (d par : page R) (cats : list R) : res R :=
    match vect d with
    | None => UB
    | Some y => if (length cats =? 2)%nat then biprobit_ll y d par
                else match mat par with None => UB | Some B => multiprobit_loop y cats d B (gc B) 0 0 end
    end.
  (** 129-153, probit_dlog_likelihood, two options *)
  Definition deriv_base (y betax : R) : R :=
    let cdf := clamp (Phi (- betax)) in if Req_EM_T y 0 then - phi (- betax) / cdf else phi (- betax) / (1 - cdf).
  Definition add_row (x : list R) (base : R) (g : list R) : res (list R) := vzip (fun a b => a + b * base) g x.
  Fixpoint dlog_loop (rows xb : list (list R)) (y : list R) (g : list R) : res (list R) :=
    match rows, xb, y with
    | [], _, _ => Ok g
    | x :: rows', (b :: _) :: xb', a :: y' => do g <- add_row x (deriv_base a b) g; dlog_loop rows' xb' y' g
    | _, _, _ => UB
    end.
  Definition probit_dlog (d par : page R) : res (list R) :=
    match vect d, mat d with
    | Some y, Some X => do xb <- the_mat (apop_dot d par "000" "000"); dlog_loop (ga X) (ga xb) y (replicate (gc X) 0)
    | _, _ => UB
    end.
End probit.
