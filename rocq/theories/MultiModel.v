(** Model of model/apop_multinomial.c.  The parameter vector is (n, p_1, ..., p_(K-1)); the data is a matrix of counts (natural numbers: what the conversions to unsigned int at 88 and 95 leave of them),
    without a vector.  Doubles are reals, with infinities and NaN.  GSL's densities are modelled by their documented formulas. *)
From Coq Require Import Reals.
From Verif Require Import Base SearchModel.
Local Open Scope list_scope.
Local Open Scope R_scope.

Definition lnfact (n : nat) : R := ln (INR (fact n)).
(** gsl_ran_multinomial_lnpdf(K, p, n): reads K counts *)
Definition lnpdf (p : list R) (h : list nat) : res xr :=
  if (length p <=? length h)%nat then
    let h := take (length p) h in
    let norm := fold_left Rplus p 0 in
    Ok (fold_left (fun acc '(q, n) => if (0 <? n)%nat then xadd acc (xsub (xscale (INR n) (xlog (xquot q norm))) (Fin (lnfact n))) else acc) (combine p h) (Fin (lnfact (list_sum h))))
  else UB.
(** gsl_ran_binomial_pdf(k, p, n), for a probability p *)
Definition choose (n k : nat) : R := INR (fact n) / (INR (fact k) * INR (fact (n - k))).
Definition binom_pdf (k : nat) (p : R) (n : nat) : R := if (n <? k)%nat then 0 else choose n k * p ^ k * (1 - p) ^ (n - k).

Fixpoint sum_rows {A} (f : A -> res xr) (rows : list A) (acc : xr) : res xr := match rows with [] => Ok acc | r :: rows => do l <- f r; sum_rows f rows (xadd acc l) end.
(** 49, 110, 143: the parameters as a vector of probabilities, given n *)
Definition p_vector (pv : list R) (n : R) : list R := match pv with [] => [] | _ :: q => (1 - (fold_left Rplus pv 0 - n)) :: q end.
Definition put_back (pv : list R) (n : R) : list R := match pv with [] => [] | _ :: q => n :: q end.
(** 87-89: column one only *)
Definition binomial_row (q n : R) (r : list nat) : res xr := match r with _ :: h :: _ => Ok (xlog (Fin (binom_pdf h q (Z.to_nat (Int_part n))))) | _ => UB end.
(** 100-114: the value and the parameters as they are left.  [rows]: the rows of the data (apop_map_sum's default for a function of a vector) *)
Definition log_likelihood (pv : list R) (rows : list (list nat)) : res (xr * list R) :=
  match pv with
  | n :: q1 :: _ =>
    if Rlt_dec 1 q1 then Ok (NaN, pv)
    else if Req_EM_T n 2 then do l <- sum_rows (binomial_row q1 n) rows (Fin 0); Ok (l, pv)
    else let p := p_vector pv n in do l <- sum_rows (lnpdf p) rows (Fin 0); Ok (l, put_back p n)
  | _ => Ok (NaN, pv)
  end.

(** 44-64: cell (i, j) of the covariance page, and the parameters as they are left; int n truncates *)
Definition covar (pv : list R) : (nat -> nat -> R) * list R :=
  let n := IZR (Int_part (hd 0 pv)) in
  let p := p_vector pv n in
  (fun i j => if (i =? j)%nat then n * nth i p 0 * (1 - nth i p 0) else if (i <? j)%nat then - n * nth i p 0 * nth j p 0 else - n * nth j p 0 * nth i p 0, put_back p n).
(** 173-190 for a matrix with [k] columns: the parameters, dsize.  178: int n truncates (of a number that is not negative).  apop_vector_normalize: StatsModel *)
Definition col_sums (k : nat) (rows : list (list nat)) : list R := map (fun j => fold_left Rplus (map (fun r => INR (nth j r 0%nat)) rows) 0) (seq 0 k).
Definition estimate (k : nat) (rows : list (list nat)) : list R * Z :=
  let v := col_sums k rows in
  let total := fold_left Rplus v 0 in
  let n := Int_part (total / INR (length rows)) in
  (put_back (if Req_EM_T total 0 then v else map (fun x => x * (1 / total)) v) (IZR n), n).

(** 145-153: the probability that the loop writes [o], if gsl_ran_binomial(q, n) is k with probability binom_pdf k q n *)
Fixpoint rng_loop (p : list R) (N : nat) (sum_p : R) (sum_n : nat) (o : list nat) : R :=
  match p, o with
  | [], [] => 1
  | x :: p, k :: o => (if Rlt_dec 0 x then binom_pdf k (x / (1 - sum_p)) (N - sum_n) else if (k =? 0)%nat then 1 else 0) * rng_loop p N (sum_p + x) (sum_n + k) o
  | _, _ => 0
  end.
(** 130-157: the probability of writing [o], and the parameters as they are left; 134: int N truncates *)
Definition rng (pv : list R) (o : list nat) : R * list R :=
  let N := Int_part (hd 0 pv) in
  match pv with
  | [_; q] => (match o with [a; b] => if (a + b =? Z.to_nat N)%nat then binom_pdf a (1 - q) (Z.to_nat N) else 0 | _ => 0 end, put_back pv (IZR N))
  | _ => let p := p_vector pv (IZR N) in (rng_loop p (Z.to_nat N) 0 0 o, put_back p (IZR N))
  end.

(** apop_asst.m4.c:419-427, apop_model_draws: [dsize] cells for each draw, one after the other in one block, into which each draw is written from its first cell *)
Fixpoint draws {A} (block : list A) (dsize i : nat) (os : list (list A)) : res (list A) :=
  match os with
  | [] => Ok block
  | o :: os => let at_ := (i * dsize)%nat in
               if (at_ + length o <=? length block)%nat then draws (take at_ block ++ o ++ drop (at_ + length o) block) dsize (S i) os else UB
  end.

(** Threads drawing from one model: what a thread does to the parameters, in steps (134, 143, 145-153, 155) *)
Inductive rstep := ReadN | Turn | Loop | Back.
(** one step of thread [t]; [loc]: its N; the log: the N and the p the loops have been run with *)
Record rstate := Rs { r_pv : list R; r_loc : nat -> Z; r_log : list (nat * Z * list R) }.
Definition rstep_run (s : rstate) (e : nat * rstep) : rstate :=
  let '(t, a) := e in
  match a with
  | ReadN => Rs (r_pv s) (fun u => if (u =? t)%nat then Int_part (hd 0 (r_pv s)) else r_loc s u) (r_log s)
  | Turn => Rs (p_vector (r_pv s) (IZR (r_loc s t))) (r_loc s) (r_log s)
  | Loop => Rs (r_pv s) (r_loc s) (r_log s ++ [(t, r_loc s t, r_pv s)])
  | Back => Rs (put_back (r_pv s) (IZR (r_loc s t))) (r_loc s) (r_log s)
  end.
