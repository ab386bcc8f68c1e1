(** Model of the multivariate Gamma function and its logarithm (apop_stats.m4.c:787-805).  Doubles are reals; GSL's gamma and lngamma are parameters, and
    that they fail where the Gamma function is not defined is a value like any other (the theorems say where they are used). *)
From Coq Require Import Reals ZArith List.
From Verif Require Import Base.
Local Open Scope R_scope.

(** the conversion of a double to int: towards zero; out of range it is undefined *)
Definition trunc (r : R) : Z := if Rle_dec 0 r then Int_part r else (- Int_part (- r))%Z.
Definition to_int (r : R) : res Z := let k := trunc r in if (Z.leb (- 2 ^ 31) k && Z.ltb k (2 ^ 31))%bool then Ok k else UB.
(** 788, 800: (1-p)/2 is a quotient of ints *)
Definition checked (a : R) (p : Z) : R := a + IZR (Z.quot (1 - p) 2).
(** 788, 800: the condition of Apop_stopif *)
Definition undefined_here (a : R) (p : Z) : res bool :=
  let x := checked a p in
  match to_int (- x) with
  | Ok k => Ok (if Req_EM_T (- x) (IZR k) then if Rle_dec x 0 then true else false else false)
  | UB => UB | Fuel => Fuel
  end.
Section gammas.
Context (G lG : R -> R).
(** 791-792, 802-803: the loop from 1 to p (no turn for p < 1) *)
Definition arg (a : R) (i : nat) : R := a + (1 - INR i) / 2.
Definition factors (a : R) (p : Z) : R := fold_left (fun f i => f * G (arg a i)) (seq 1 (Z.to_nat p)) 1.
(** 787-794 apop_multivariate_gamma.  [None]: NaN *)
Definition multivariate_gamma (a : R) (p : Z) : res (option R) :=
  match undefined_here a p with
  | Ok true => Ok None
  | Ok false => Ok (Some (Rpower PI (IZR p * (IZR p - 1) / 4) * factors a p))
  | UB => UB | Fuel => Fuel
  end.
(** 799-805 apop_multivariate_lngamma *)
Definition multivariate_lngamma (a : R) (p : Z) : res (option R) :=
  match undefined_here a p with
  | Ok true => Ok None
  | Ok false => Ok (Some (fold_left (fun s i => s + lG (arg a i)) (seq 1 (Z.to_nat p)) (ln PI * IZR p * (IZR p - 1) / 4)))
  | UB => UB | Fuel => Fuel
  end.
End gammas.
