(** Model of apop_zipf.c and of the draws of apop_yule.c (its likelihood is yule_ll in LikeModel.v).  Doubles and long doubles are
    reals; a conversion to int of a number that no int is near enough to (infinite, NaN, or out of range after truncation) is [UB]. *)
From Coq Require Import Reals.
From Verif Require Import DataModel StatsModel ConvModel OutModel LikeModel.
Local Open Scope list_scope.
Local Open Scope R_scope.

(** C's conversion (int) x *)
Definition c_int (x : R) : res Z := if is_int (trunc x) then Ok (trunc x) else UB.

Section Zipf.
Context (zeta : R -> R).     (* gsl_sf_zeta *)
(** model/apop_zipf.c:31-40; [None]: NaN.  zeta 1 is infinite: the likelihood of a = 1 is minus infinity, not modelled apart. *)
Definition zipf_ll (bb : R) (d : page R) : option R :=
  if Rlt_dec bb 1 then None else Some (- mapsum ln d * bb - ln (zeta bb) * INR (tsize d)).
End Zipf.
(** 46-65, one turn of the do loop for the two uniforms: [Some x]: the loop ends with x.  a = 1: ainv is minus infinity, and the power
    of u in [0,1) is infinite; u = 0: the power is infinite too. *)
Definition zipf_round (a u v : R) : res (option Z) :=
  let b := Rpower 2 (a - 1) in
  if Req_EM_T a 1 then UB else
  if Req_EM_T u 0 then UB else
  do x <- c_int (Rpower u (- (1 / (a - 1))));
  let t := Rpower (1 + 1 / IZR x) (a - 1) in
  Ok (if Rlt_dec (t / b) (v * IZR x * (t - 1) / (b - 1)) then None else Some x).
(** the loop over the uniforms drawn, two at a time ([Fuel]: the tape ended) *)
Fixpoint zipf_loop (a : R) (tape : list (R * R)) : res Z :=
  match tape with
  | [] => Fuel
  | (u, v) :: tape' => do r <- zipf_round a u v; match r with Some x => Ok x | None => zipf_loop a tape' end
  end.
(** the return value, and *out ([None]: NaN) *)
Definition zipf_rng (a : R) (tape : list (R * R)) : res (nat * option R) :=
  if Rlt_dec a 1 then Ok (1%nat, None) else do x <- zipf_loop a tape; Ok (0%nat, Some (IZR x)).

(** model/apop_yule.c:64-70, for the two exponential draws.  bb = 1: -e2/0 is minus infinity or NaN, so that the logarithm is 0 or NaN
    and the quotient infinite or NaN; bb < 1: the logarithm of a negative number, unless e2 = 0.  Log of zero (e2 = 0) is minus
    infinity, and the quotient 0. *)
Definition yule_rng (bb e1 e2 : R) : res R :=
  let q := exp (- e2 / (bb - 1)) in
  if Req_EM_T bb 1 then UB else
  if Req_EM_T e2 0 then Ok (IZR (Z.max 0 0 + 1)) else
  if Rlt_dec bb 1 then UB else
  do x <- c_int (- e1 / ln (1 - q));
  Ok (IZR (Z.max x 0 + 1)).
