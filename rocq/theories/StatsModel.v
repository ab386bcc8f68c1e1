(** Model of apop_stats.m4.c: sums, means, moments, distances, normalization, percentiles, entropy.
    double and long double are taken as real numbers: rounding, overflow and infinities are not modelled.  A result
    that C would compute as NaN or an infinity (a division by zero) is [None].  A gsl_vector is a list. *)
From Coq Require Import Reals.
From Verif Require Import DataModel.
Local Open Scope list_scope.
Local Open Scope R_scope.

(** C's x / y on doubles: NaN or infinite for y = 0 *)
Definition cdiv (x y : R) : option R := if Req_EM_T y 0 then None else Some (x / y).
(** C's sqrt: NaN on negatives *)
Definition csqrt (x : R) : option R := if Rlt_dec x 0 then None else Some (R_sqrt.sqrt x).
Notation "'try' x <- r ; f" := (match r with Some x => f | None => None end)
  (at level 60, x pattern, r at next level, right associativity).

(** apop_stats.m4.c:14-20 apop_vector_sum (NULL: 0) *)
Definition vector_sum (v : list R) : R := fold_left Rplus v 0.

(** -------- GSL (library; statistics/{mean,variance,covariance}_source.c of GSL), used by lines 144, 483, 516, 551 --------
    The running forms: acc += (x - acc)/(i+1). *)
Fixpoint running (i : nat) (acc : R) (l : list R) : R :=
  match l with [] => acc | x :: l' => running (S i) (acc + (x - acc) / INR (S i)) l' end.
Definition gsl_mean (v : list R) : R := running 0 0 v.
(** gsl_stats_variance_m: mean of (x-mean)^2 in running form, then times n/(n-1) *)
Definition gsl_variance_m (v : list R) (mean : R) : option R :=
  let n := INR (length v) in
  try r <- cdiv n (n - 1);
  Some (running 0 0 (map (fun x => (x - mean) * (x - mean)) v) * r).
Definition gsl_covariance (v1 v2 : list R) : option R :=
  let m1 := gsl_mean v1 in let m2 := gsl_mean v2 in
  let n := INR (length v2) in
  try r <- cdiv n (n - 1);
  Some (running 0 0 (zip_with (fun x y => (x - m1) * (y - m2)) v1 v2) * r).

(** Check_vw, apop_stats.m4.c:8-11 (v non-NULL) *)
Definition check_vw (v : list R) (w : option (list R)) : bool :=
  negb (length v =? 0)%nat && match w with Some w => (length w =? length v)%nat | None => true end.

(** the loops of 484-489: (sum, wsum) *)
Definition wloop1 (v w : list R) : R * R :=
  fold_left (fun '(s, ws) '(x, y) => (s + y * x, ws + y)) (combine v w) (0, 0).
(** apop_stats.m4.c:477-490 apop_vector_mean *)
Definition vector_mean (v : list R) (w : option (list R)) : option R :=
  if negb (check_vw v w) then None else
  match w with
  | None => Some (gsl_mean v)
  | Some w => let '(s, ws) := wloop1 v w in cdiv s ws
  end.

(** line 525, 572, 71: len = wsum < 1.1 ? size : wsum *)
Definition wlen (w : list R) (wsum : R) : R := if Rlt_dec wsum (11 / 10) then INR (length w) else wsum.

(** apop_stats.m4.c:511-527 apop_vector_var *)
Definition vector_var (v : list R) (w : option (list R)) : option R :=
  if negb (check_vw v w) then None else
  match w with
  | None => gsl_variance_m v (gsl_mean v)
  | Some w =>
    let '(s, sq, ws) := fold_left (fun '(s, sq, ws) '(x, y) => (s + y * x, sq + y * (x * x), ws + y)) (combine v w) (0, 0, 0) in
    let len := wlen w ws in
    try a <- cdiv sq len; try b <- cdiv s len; try c <- cdiv ((a - b * b) * len) (len - 1); Some c
  end.

(** apop_stats.m4.c:538-574 apop_vector_cov *)
Definition vector_cov (v1 v2 : list R) (w : option (list R)) : option R :=
  if (length v1 =? 0)%nat || (length v2 =? 0)%nat || negb (length v1 =? length v2)%nat
     || negb (match w with Some w => (length w =? length v1)%nat && (length w =? length v2)%nat | None => true end) then None else
  match w with
  | None => gsl_covariance v1 v2
  | Some w =>
    let '(s1, s2, sq, ws) :=
      fold_left (fun '(s1, s2, sq, ws) '(x1, (x2, y)) => (s1 + y * x1, s2 + y * x2, sq + y * x1 * x2, ws + y))
                (combine v1 (combine v2 w)) (0, 0, 0, 0) in
    let len := wlen w ws in
    try a <- cdiv sq len; try b <- cdiv (s1 * s2) (len * len); try c <- cdiv len (len - 1); Some ((a - b) * c)
  end.

(** apop_stats.m4.c:162-168 apop_vector_correlation *)
Definition vector_correlation (v1 v2 : list R) (w : option (list R)) : option R :=
  try c <- vector_cov v1 v2 w; try a <- vector_var v1 w; try b <- vector_var v2 w;
  try s <- csqrt (a * b); cdiv c s.

(** apop_stats.m4.c:60-73 wskewkurt *)
Definition wskewkurt (v w : list R) (e : nat) : option R :=
  try mu <- vector_mean v (Some w);
  let '(s, ws) := fold_left (fun '(s, ws) '(x, y) => (s + y * (x - mu) ^ e, ws + y)) (combine v w) (0, 0) in
  cdiv s (wlen w ws).
(** apop_stats.m4.c:89-106 apop_vector_skew_pop, 121-137 apop_vector_kurtosis_pop *)
Definition central_pop (e : nat) (v : list R) (w : option (list R)) : option R :=
  if negb (check_vw v w) then None else
  match w with
  | Some w => wskewkurt v w e
  | None => Some (running 0 0 (map (fun x => (x - gsl_mean v) ^ e) v))
  end.
Definition vector_skew_pop := central_pop 3.
Definition vector_kurtosis_pop := central_pop 4.
(** apop_stats.m4.c:40-41 apop_vector_skew *)
Definition vector_skew (v : list R) : option R :=
  let n := INR (length v) in
  try p <- vector_skew_pop v None; cdiv (p * n ^ 2) ((n - 1) * (n - 2)).
(** apop_stats.m4.c:52-58 apop_vector_kurtosis.  gsl_pow_3(n-1), gsl_pow_2(n)-3*n+3: the subtraction is in double except
    n-1, 3*n, 6*n-9, n*n which are size_t arithmetic (6*n-9 wraps for n = 1, where n-1 = 0 already gives NaN). *)
Definition vector_kurtosis (v : list R) : option R :=
  let n := INR (length v) in
  try c0 <- cdiv (n * n) ((n - 1) ^ 3 * (n ^ 2 - 3 * n + 3));
  let c1 := n * (n - 1) ^ 2 + (6 * n - 9) in
  let c2 := n * (6 * n - 9) in
  try k <- vector_kurtosis_pop v None; try va <- vector_var v None; try z <- cdiv (va * (n - 1)) n;
  Some (c0 * (c1 * k - c2 * z ^ 2)).

(** apop_stats.m4.c:143-144 apop_vector_var_m *)
Definition vector_var_m (v : list R) (mean : R) : option R := gsl_variance_m v mean.

(** -------- matrices (a grid) -------- *)
(** apop_stats.m4.c:309-316 apop_matrix_sum (NULL: 0) *)
Definition matrix_sum (m : grid R) : R := fold_left (fun s r => fold_left Rplus r s) (ga m) 0.
(** apop_stats.m4.c:323-336 apop_matrix_mean; the body of the inner loop 329-333.  cnt is int (no overflow modelled). *)
Definition mm_step (st : R * nat) (x : R) : R * nat :=
  let '(avg, cnt) := st in (avg * (INR cnt / (INR cnt + 1)) + x / INR (S cnt), S cnt).
Definition matrix_mean (m : option (grid R)) : R :=
  match m with None => 0 | Some m => fst (fold_left (fun st r => fold_left mm_step r st) (ga m) (0, 0%nat)) end.
(** apop_stats.m4.c:352-371 apop_matrix_mean_and_var: (mean, var) *)
Definition mv_step (st : R * R * nat) (x : R) : R * R * nat :=
  let '(avg, avg2, cnt) := st in
  (avg * (INR cnt / (INR cnt + 1)) + x / (INR (S cnt) + 0), avg2 * (INR cnt / (INR cnt + 1)) + (x * x) / (INR (S cnt) + 0), S cnt).
Definition matrix_mean_and_var (m : option (grid R)) : R * option R :=
  match m with
  | None => (0, None)
  | Some m => let '(avg, avg2, _) := fold_left (fun st r => fold_left mv_step r st) (ga m) (0, 0, 0%nat) in
              (avg, Some (avg2 - avg * avg))
  end.

(** Apop_cv of a data set with a matrix: column j (j within bounds) *)
Definition colv {A} (m : grid A) (j : nat) : list A := omap (fun r => r !! j) (ga m).
(** the (i,j)-indexed loops 590-596, in order; cells written with gsl_matrix_set *)
Definition mset {A} (m : grid A) (i j : nat) (x : A) : grid A := Gr (gr m) (gc m) (alter (fun r => <[j := x]> r) i (ga m)).
Definition cov_body (m : grid R) (w : option (list R)) (i : nat) (out : grid (option R)) (j : nat) : grid (option R) :=
  let c := vector_cov (colv m i) (colv m j) w in
  let out := mset out i j c in
  if (i =? j)%nat then out else mset out j i c.
(** apop_stats.m4.c:585-601 apop_data_covariance: the matrix (cells may be NaN: [None]) and the names.
    [None]: NULL returned.  Allocation does not fail; g: the content of a fresh cell. *)
Definition data_covariance (g : option R) (d : page R) : option (grid (option R) * names) :=
  match mat d with
  | None => None
  | Some m =>
    let n := gc m in
    let out := fold_left (fun out i => fold_left (cov_body m (wts d) i) (seq i (n - i)) out) (seq 0 n)
                         (Gr n n (replicate n (replicate n g))) in
    Some (out, name_stack (name_stack name_alloc (nms d) "c"%char "c"%char) (nms d) "r"%char "c"%char)
  end.
(** gsl_vector_scale on a column / row view of the output *)
Definition oscale (k : option R) (x : option R) : option R := try a <- x; try b <- k; Some (a * b).
Definition scale_col (m : grid (option R)) (j : nat) (k : option R) : grid (option R) :=
  Gr (gr m) (gc m) (map (fun r => alter (oscale k) j r) (ga m)).
Definition scale_row (m : grid (option R)) (i : nat) (k : option R) : grid (option R) :=
  Gr (gr m) (gc m) (alter (map (oscale k)) i (ga m)).
(** apop_stats.m4.c:610-619 apop_data_correlation *)
Definition data_correlation (g : option R) (d : page R) : option (grid (option R) * names) :=
  match data_covariance g d, mat d with
  | Some (out, nm), Some m =>
    Some (fold_left (fun out i =>
            let k := try v <- vector_var (colv m i) (wts d); try s <- csqrt v; cdiv 1 s in
            scale_row (scale_col out i k) i k) (seq 0 (gc m)) out, nm)
  | _, _ => None
  end.

(** -------- distance -------- *)
(** C's pow(x, p) for x >= 0 and p > 0 *)
Definition cpow (x p : R) : R := if Req_EM_T x 0 then 0 else Rpower x p.
Definition char_in (c : ascii) (l : list ascii) : bool := existsb (fun x => Ascii.eqb x c) l.
(** apop_stats.m4.c:196-243 apop_vector_distance; inb = None: the zero vector of the same size (205-211).
    The static zero vector is recreated whenever its size differs, so it carries no history. *)
Definition vector_distance (a : list R) (b : option (list R)) (metric : ascii) (norm : R) : option R :=
  let b := match b with Some b => b | None => replicate (length a) 0 end in
  if negb (length a =? length b)%nat then None else
  let ab := combine a b in
  if char_in metric ["e"%char; "E"%char] then Some (R_sqrt.sqrt (fold_left (fun d '(x, y) => d + (x - y) * (x - y)) ab 0))
  else if char_in metric ["m"%char; "M"%char] then Some (fold_left (fun d '(x, y) => d + Rabs (x - y)) ab 0)
  else if char_in metric ["d"%char; "D"%char] then
    Some (fold_right (fun '(x, y) r => if Req_EM_T x y then r else 1) 0 ab)
  else if char_in metric ["s"%char; "S"%char] then
    Some (fold_left (fun d '(x, y) => if Rlt_dec (Rabs (x - y)) d then d else Rabs (x - y)) ab 0)
  else if char_in metric ["l"%char; "L"%char] then
    Some (cpow (fold_left (fun d '(x, y) => d + cpow (Rabs (x - y)) norm) ab 0) (1 / norm))
  else None.

(** -------- normalize -------- *)
(** gsl_vector_minmax (GSL library): a running (min, max), starting from the first element *)
Definition minmax (v : list R) : option (R * R) :=
  match v with
  | [] => None
  | x :: _ => Some (fold_left (fun '(mn, mx) y => (if Rlt_dec y mn then y else mn, if Rlt_dec mx y then y else mx)) v (x, x))
  end.
(** apop_stats.m4.c:265-303 apop_vector_normalize.  The result is the content of the output vector ( *out, or in when out is
    NULL: the value is the same because in is only read before the first write, or is the vector written, 283-285);
    [inl v] finite content, [inr tt]: every element NaN or infinite.  v non-empty. *)
Definition vector_normalize (v : list R) (ty : ascii) : res (list R + unit) :=
  let scale k l := match k with Some k => inl (map (fun x => x * k) l) | None => inr tt end in
  if Ascii.eqb ty "s"%char then
    let mu := gsl_mean v in
    let out := map (fun x => x + - mu) v in
    (match (try a <- vector_var_m out 0; try s <- csqrt a; cdiv 1 s) with
     | None => Ok (inl out)                                     (* 287: return with the mean subtracted *)
     | Some k => Ok (scale (Some k) out)
     end)
  else if Ascii.eqb ty "r"%char then
    match minmax v with
    | None => UB
    | Some (mn, mx) => Ok (scale (cdiv 1 (mx - mn)) (map (fun x => x + - mn) v))
    end
  else if Ascii.eqb ty "p"%char then
    let s := vector_sum v in
    if Req_EM_T s 0 then Ok (inl v) else Ok (scale (cdiv 1 s) v)
  else if Ascii.eqb ty "m"%char then Ok (inl (map (fun x => x + - gsl_mean v) v))
  else Ok (inl v).

(** -------- percentiles -------- *)
(** gsl_sort_vector: an ascending rearrangement; modelled by insertion *)
Fixpoint rinsert (x : R) (l : list R) : list R :=
  match l with [] => [x] | y :: l' => if Rle_dec x y then x :: l else y :: rinsert x l' end.
Fixpoint rsort (l : list R) : list R := match l with [] => [] | x :: l' => rinsert x (rsort l') end.
(** apop_stats.m4.c:456-476 apop_vector_percentiles, one value of i: i*(size-1)/100.0 is computed in double and truncated to
    int; exact here (the rounded quotient of i*(size-1) < 2^53 by 100 is an integer exactly when the quotient is, and truncates
    to the same integer).  An empty vector makes size-1 wrap: UB. *)
Definition pctile (s : list R) (rounding : ascii) (i : nat) : res R :=
  let num := (i * (length s - 1))%nat in
  let index := (num / 100)%nat in
  let exact := (index * 100 =? num)%nat in
  let rd k := match s !! k with Some x => Ok x | None => UB end in
  let index := if Ascii.eqb rounding "u"%char && negb exact then S index else index in
  let exact := (index * 100 =? num)%nat in
  if Ascii.eqb rounding "a"%char && negb exact then do a <- rd index; do b <- rd (S index); Ok ((a + b) / 2)
  else rd index.
Fixpoint rmapM {A B} (f : A -> res B) (l : list A) : res (list B) :=
  match l with [] => Ok [] | x :: l' => do y <- f x; do ys <- rmapM f l'; Ok (y :: ys) end.
Definition vector_percentiles (v : list R) (rounding : ascii) : res (list R) :=
  if (length v =? 0)%nat then UB else rmapM (pctile (rsort v) rounding) (seq 0 101).

(** -------- entropy -------- *)
(** apop_stats.m4.c:648-664 apop_vector_entropy: [None] = NaN *)
Fixpoint ent_loop (l : list R) (sum out : R) : option R :=
  match l with
  | [] => Some out
  | x :: l' => let val := x / sum in
               if Rlt_dec val 0 then None
               else if Req_EM_T val 0 then ent_loop l' sum out
               else ent_loop l' sum (out - ln val * val)
  end.
Definition vector_entropy (v : list R) : option R :=
  if (length v =? 0)%nat then Some 0 else
  let sum := vector_sum v in
  if Rlt_dec sum 0 then None else if Req_EM_T sum 0 then Some 0 else ent_loop v sum 0.

(** -------- summarize -------- *)
(** apop_stats.m4.c:386-431 apop_data_summarize: one row per column of the input: mean, std dev, variance, min, median, max;
    names: the six column names, the input's column names as row names, the title.  Row names of unnamed input (402-406) are
    only made when the names struct itself is NULL, which apop_data_alloc never leaves. *)
Definition summary_row (d : page R) (v : list R) : res (list (option R)) :=
  let '(mean, var) := match wts d with
    | None => let mean := vector_mean v None in (mean, try m <- mean; vector_var_m v m)
    | Some w => (vector_mean v (Some w), vector_var v (Some w)) end in
  do pc <- vector_percentiles v "d"%char;
  match pc !! 0%nat, pc !! 50%nat, pc !! 100%nat with
  | Some a, Some b, Some c => Ok [mean; try x <- var; csqrt x; var; Some a; Some b; Some c]
  | _, _, _ => UB
  end.
Definition data_summarize (d : page R) : res (option (grid (option R) * names)) :=
  match mat d with
  | None => Ok None
  | Some m =>
    let nm := fold_left (fun n s => add1 n s "c"%char) ["mean"; "std dev"; "variance"; "min"; "median"; "max"]%string name_alloc in
    let nm := name_stack nm (nms d) "r"%char "c"%char in
    let nm := match title (nms d) with
              | Some t => if String.eqb t ""%string then nm else add1 nm ("summary for " ++ t)%string "h"%char
              | None => nm end in
    do rows <- rmapM (fun j => summary_row d (colv m j)) (seq 0 (gc m));
    Ok (Some (Gr (gc m) 6 rows, nm))
  end.
