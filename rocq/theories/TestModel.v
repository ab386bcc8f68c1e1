(** Model of apop_tests.m4.c: t tests, F test, chi-squared test of a table, ANOVA, apop_test.
    Doubles are reals; [None] is a NaN, and also stands for the infinity of a division by zero.  GSL's distribution functions are parameters. *)
From Coq Require Import Reals.
From Verif Require Import DataModel NamesModel StatsModel LinModel ConvModel DbModel OlsModel.
Local Open Scope list_scope.
Local Open Scope R_scope.

(** gsl_cdf_gaussian_P and _Q (of x, sigma), gsl_cdf_lognormal (x, zeta, sigma), gsl_cdf_tdist (x, nu), gsl_cdf_fdist (x, nu1, nu2), gsl_cdf_chisq (x, nu), gsl_cdf_flat (x, a, b) *)
Record cdfs := Cdfs { gaussP : R -> R -> R; gaussQ : R -> R -> R; lognP : R -> R -> R -> R; lognQ : R -> R -> R -> R; tP : R -> R -> R; tQ : R -> R -> R;
  fP : R -> R -> R -> R; fQ : R -> R -> R -> R; chiP : R -> R -> R; chiQ : R -> R -> R; flatP : R -> R -> R -> R; flatQ : R -> R -> R -> R }.
Definition omap1 (f : R -> R) (x : option R) : option R := match x with Some x => Some (f x) | None => None end.
Section tests.
  Context (g : cdfs).
  (** 6-26, produce_t_test_output: the named elements *)
  Definition produce_t (df : Z) (stat diff : option R) : list (string * option R) :=
    let pval := omap1 (fun s => tP g s (IZR df)) stat in
    let qval := omap1 (fun p => 1 - p) pval in
    let two := match pval, qval with Some p, Some q => Some (2 * Rmin (Rabs (p - 0.5)) (Rabs (q - 0.5))) | _, _ => None end in
    let one := match pval, qval with Some p, Some q => Some (Rmin p q) | _, _ => None end in
    [("mean left - right", diff); ("t statistic", stat); ("df", Some (IZR df)); ("p value, 1 tail", one); ("confidence, 1 tail", omap1 (fun x => 1 - x) one);
     ("p value, 2 tail", omap1 (fun x => 1 - x) two); ("confidence, 2 tail", two)]%string.
  (** 54-72, apop_t_test *)
  Definition share (v : list R) : option R := if (1 <? length v)%nat then try x <- vector_var v None; cdiv x (INR (length v) - 1) else Some 0.
  Definition t_test (a b : list R) : list (string * option R) :=
    let diff := try x <- vector_mean a None; try y <- vector_mean b None; Some (x - y) in
    let stat := try d <- diff; try q <- share b; try r <- share a; try s <- csqrt (q + r); cdiv d s in
    produce_t (Z.of_nat (length a) + Z.of_nat (length b) - 2) stat diff.
  (** 91-102, apop_paired_t_test; gsl_vector_sub of different lengths ends the program *)
  Definition paired_t_test (a b : list R) : res (list (string * option R)) :=
    do d <- vzip Rminus a b;
    let avg := vector_mean d None in
    let stat := try m <- avg; try v <- vector_var d None; try q <- cdiv v (INR (length a) - 1); try s <- csqrt q; cdiv m s in
    Ok (produce_t (Z.of_nat (length a) - 1) stat avg).

  (** ---------- F test ---------- *)
  (** the user's contrasts: matrix, and a vector not there, there, or freed *)
  Inductive hung := NoVec | Vec (v : list R) | Freed.
  Record contrast := Con { c_mat : option (grid R); c_vec : hung }.
  (** 145-150: the identity without its first row *)
  Definition default_contrast (k : nat) : grid R := Gr (k - 1) k (map (fun i => map (fun j => if (j =? S i)%nat then 1 else 0) (seq 0 k)) (seq 0 (k - 1))).
  (** 168-182: X'X of the columns but the first less their means *)
  Definition centered_gram (X : grid R) : option (grid R) :=
    let means := map (fun i => if (i =? 0)%nat then Some 0 else vector_mean (get_col X i) None) (seq 0 (gc X)) in
    let cell_ i j := match means !! i, means !! j with Some (Some a), Some (Some b) => Some (fold_left (fun t r => t + (nth i r 0 - a) * (nth j r 0 - b)) (ga X) 0) | _, _ => None end in
    match mapM (fun i => mapM (cell_ i) (seq 0 (gc X))) (seq 0 (gc X)) with Some rows => Some (Gr (gc X) (gc X) rows) | None => None end.
  (** 159-217, apop_f_test_base: the error or the five elements.  [sse]: from apop_estimate_coefficient_of_determination *)
  Definition f_test_base (linv : grid R -> option (grid R)) (X : grid R) (beta : list R) (cm : grid R) (cv : list R) (sse : R) : res (ascii + list (string * option R)) :=
    let q := length cv in
    if negb (gr cm =? q)%nat then Ok (inl "d"%char) else
    let df := (Z.of_nat (gr X) - Z.of_nat q)%Z in
    match centered_gram X with
    | None => Ok (inl "i"%char)
    | Some xpx => match linv xpx with
      | None => Ok (inl "i"%char)
      | Some inv =>
        match apop_dot (of_mat cm) (of_mat inv) "m" "m" with
        | None => UB
        | Some qx =>
          match apop_dot qx (of_mat cm) "m" "t" with
          | None => UB                                            (* NULL->error *)
          | Some qxq => match err qxq, err qx with Some _, _ | _, Some _ => Ok (inl "m"%char) | None, None =>
            do m <- the_mat (Some qxq);
            match linv m with
            | None => Ok (inl "i"%char)
            | Some k =>
              match apop_dot (of_mat cm) (of_vec beta) "m" "v" with
              | None => UB
              | Some qb => match err qb with Some _ => Ok (inl "m"%char) | None =>
                do qbv <- the_vec (Some qb);
                do delta <- vzip Rminus qbv cv;
                do kd <- the_vec (apop_dot (of_mat k) (of_vec delta) "000" "v");
                let stat := try z <- cdiv (IZR df) (sse * INR q); Some (ddot_loop delta kd 0 * z) in
                let p := if (0 <? q)%nat && (0 <? df)%Z then omap1 (fun s => fQ g s (INR q) (IZR df)) stat else None in
                Ok (inr [("F statistic", stat); ("p value", p); ("confidence", omap1 (fun x => 1 - x) p); ("df1", Some (INR q)); ("df2", Some (IZR df))]%string)
              end end
            end end end end
      end
    end.
  (** 138-157, the head of apop_f_test: the result and what has become of the user's contrasts (if any).  free_matrix is never set: the default matrix stays. *)
  Definition f_test (linv : grid R -> option (grid R)) (X : grid R) (beta : list R) (sse : R) (c : option contrast) : res ((ascii + list (string * option R)) * option contrast) :=
    let c' := match c with Some c => c | None => Con None NoVec end in
    let m := match c_mat c' with Some m => m | None => default_contrast (length beta) end in
    match c_vec c' with
    | Freed => UB
    | Vec v => do o <- f_test_base linv X beta m v sse; Ok (o, option_map (fun _ => Con (Some m) (Vec v)) c)
    | NoVec => do o <- f_test_base linv X beta m (replicate (gr m) 0) sse; Ok (o, option_map (fun _ => Con (Some m) Freed) c)
    end.

  (** ---------- tables ---------- *)
  (** 219-225, one_chi_sq; the total is an int *)
  Definition one_chi_sq (m : grid R) (row col : nat) (n : Z) : option R :=
    try rowexp <- cdiv (vector_sum (nth row (ga m) [])) (IZR n); try colexp <- cdiv (vector_sum (get_col m col)) (IZR n);
    let observed := nth col (nth row (ga m) []) 0 in
    let expected := IZR n * rowexp * colexp in
    cdiv ((observed - expected) ^ 2) expected.
  (** 235-252, apop_test_anova_independence; [None]: NULL.  Sizes are positive, so 0 for df means one cell or one row of one. *)
  Definition chi_test (d : page R) : option (list (string * option R)) :=
    match mat d with
    | None => None
    | Some m =>
      let df := if (gr m =? 1)%nat then INR (gc m) - 1 else if (gc m =? 1)%nat then INR (gr m) else (INR (gr m) - 1) * (INR (gc m) - 1) in
      if Req_EM_T df 0 then None else
      let n := trunc (matrix_sum m) in
      let total := fold_left (fun t row => fold_left (fun t col => try s <- t; try x <- one_chi_sq m row col n; Some (s + x)) (seq 0 (gc m)) t) (seq 0 (gr m)) (Some 0) in
      Some [("chi squared statistic", total); ("df", Some df); ("p value", omap1 (fun x => chiQ g x df) total)]%string
    end.
  (** 255-297, apop_anova_one_way of a table whose rows make these groups (of numbers), in the order of the query's result; a 3 by 6 table.  Neither query fails. *)
  Definition opt2 (f : R -> R -> option R) (a b : option R) : option R := try x <- a; try y <- b; f x y.
  Definition osub := opt2 (fun x y => Some (x - y)).
  Definition pop (l : list R) : option R := match aggregate "var_pop" (map Some l) with Some x => x | None => None end.
  Definition anova_one_way (groups : list (list R)) : option (list (list (option R))) :=
    match groups with
    | [] => None
    | first :: _ =>
      let all := concat groups in
      let total_df := INR (length all) in
      let tss := omap1 (fun v => v * total_df) (pop all) in
      let group_df := INR (length groups) - 1 in
      let wss := omap1 (fun v => v * group_df) (pop first) in
      let res := osub tss wss in
      let residual_df := total_df - group_df in
      let ms1 := opt2 cdiv wss (Some group_df) in
      let ms2 := opt2 cdiv res (Some residual_df) in
      let f := opt2 cdiv ms1 ms2 in
      let p := omap1 (fun x => fP g x group_df residual_df) f in
      Some [[wss; Some group_df; ms1; f; p; omap1 (fun x => 1 - x) p]; [res; Some residual_df; ms2; Some 0; Some 0; Some 0]; [tss; Some total_df; Some 0; Some 0; Some 0; Some 0]]
    end.
  (** 308-364, apop_anova with two groupings; the groups by the first, the second, and both *)
  Definition anova_two_way (g1 g2 g12 : list (list R)) : option (list (list (option R))) :=
    match anova_one_way g1, anova_one_way g2, anova_one_way g12 with
    | Some (((s1 :: d1 :: m1 :: _)) :: _ :: (ts :: td :: tr) :: _), Some ((s2 :: d2 :: m2 :: _) :: _), Some ((s3 :: d3 :: m3 :: _) :: _) =>
      let res := osub (osub (osub ts s1) s2) s3 in
      let rdf := osub (osub (osub td d1) d2) d3 in
      let ms := opt2 cdiv res rdf in
      let row s d m := let f := opt2 cdiv m ms in let p := match f, d, rdf with Some f, Some d, Some r => Some (fP g f d r) | _, _, _ => None end in [s; d; m; f; p; omap1 (fun x => 1 - x) p] in
      Some [row s1 d1 m1; row s2 d2 m2; row s3 d3 m3; [res; rdf; ms; Some 0; Some 0; Some 0]; ts :: td :: tr]
    | _, _, _ => None
    end.

  (** ---------- apop_test ---------- *)
  (** 432-502; "000": no tail given; p1, p2: 0 if not given.  Apop_assert returns 0. *)
  Definition apop_test (stat : R) (dist : option string) (p1 p2 : R) (tail : ascii) : res (option R) :=
    match dist with
    | None => UB
    | Some d =>
      let is s := ci_eq d s in
      let chi := is "chi squared"%string || is "chi"%string || is "chisq"%string in
      let normal := is "normal"%string || is "gaussian"%string in
      let z x := if Req_EM_T x 0 then true else false in
      if is "f"%string && (z p1 || z p2) then Ok None else
      if (is "t"%string || is "f"%string || chi) && z p1 then Ok None else
      let p2 := if z p2 && normal then 1 else p2 in
      let p2 := if z p2 && (if Rle_dec 0 p1 then true else false) && is "uniform"%string then 1 else p2 in
      let tail := if (tail =? "000")%char then if chi then "u"%char else "a"%char else tail in
      let pick (u l b : R) := Ok (Some (if (tail =? "u")%char then u else if (tail =? "l")%char then l else b)) in
      if normal then pick (gaussQ g (p1 - stat) p2) (gaussP g (p1 - stat) p2) (2 * gaussQ g (Rabs (p1 - stat)) p2)
      else if is "lognormal"%string then pick (lognQ g stat p1 p2) (lognP g stat p1 p2) 0
      else if is "t"%string then pick (tQ g stat p1) (tP g stat p1) (2 * tQ g (Rabs stat) p1)
      else if is "f"%string then pick (fQ g stat p1 p2) (fP g stat p1 p2) 0
      else if chi then pick (chiQ g stat p1) (chiP g stat p1) 0
      else if is "uniform"%string then pick (flatQ g stat p1 p2) (flatP g stat p1 p2) (2 * flatQ g (Rabs (stat - (p1 + p2) / 2)) p1 p2)
      else Ok (Some 0)
    end.
End tests.
