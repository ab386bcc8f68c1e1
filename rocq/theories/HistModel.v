(** Model of apop_hist.m4.c: apop_data_to_bins (325-357), apop_vector_moving_average (365-380), the goodness-of-fit statistic (77-92) and the
    Kolmogorov-Smirnov test (101-268).  Doubles and long doubles are reals; [None] is NaN.  int overflow is not modelled. *)
From Coq Require Import Reals.
From Verif Require Import DataModel StatsModel ConvModel LikeModel.
Local Open Scope list_scope.
Local Open Scope R_scope.

(** floor of a double *)
Definition rfloor (x : R) : R := IZR (Int_part x).
(** 2*GSL_DBL_EPSILON *)
Definition eps2 : R := 2 * / 2 ^ 52.

(** ---------- apop_data_to_bins ---------- *)
(** how one column is binned: 335 width, offset and max *)
Record bin := Bin { bwidth : option R; boff : option R; bmax : R }.
(** 344-347, for a given specification: [spec_get i j] is apop_data_get, None if it reports an error (it returns NaN) *)
Definition spec_get (bs : page R) (i : nat) (j : Z) : option R :=
  if (j =? -1)%Z then match vect bs with Some v => v !! i | None => None end
  else match mat bs with Some m => cell m i (Z.to_nat j) | None => None end.
Definition spec_two (bs : page R) : bool :=
  (match vect bs with Some v => (length v =? 2)%nat | None => false end) || (match mat bs with Some m => (gr m =? 2)%nat | None => false end).
Definition given_bin (bs : page R) (j : Z) : bin := Bin (spec_get bs 0 j) (if spec_two bs then spec_get bs 1 j else Some 0) 0.
(** 348-352, without one; the column is not empty *)
Definition own_bin (count : Z) (col : list R) : bin :=
  match gsl_max col, gsl_min col with
  | Some mx, Some mn => Bin (Some ((mx - mn) / (if (count =? 0)%Z then R_sqrt.sqrt (INR (length col)) else IZR count))) (Some mn) mx
  | _, _ => Bin None None 0 end.
(** 355-356: one element.  x/0 is an infinity or NaN, and times zero NaN. *)
Definition snap (close : bool) (b : bin) (val : R) : option R :=
  match bwidth b, boff b with
  | Some w, Some o =>
      if Req_EM_T w 0 then None else
      let adjust := if close && bool_of (Req_EM_T val (bmax b)) && negb (bool_of (Req_EM_T val o)) then eps2 else 0 in
      Some (rfloor ((val - o - adjust) / w) * w + o)
  | _, _ => None end.
(** column [j] of the matrix *)
Definition gcol (m : grid R) (j : nat) : list R := map (fun r => nth j r 0) (ga m).
(** 325-359: the binned data (vector, matrix, weights), and the specification page that is added if none is given *)
Record binned := Bd { ovec : option (list (option R)); omat : option (list (list (option R))); owts : option (list R); opage : option (option (list (option R)) * option (list (list (option R)))) }.
Definition data_to_bins (d : page R) (spec : option (page R)) (count : Z) (close_top : option ascii) : binned :=
  let close := match close_top with Some c => Ascii.eqb c "y"%char | None => match spec with None => true | Some _ => false end end in
  let binv v := match spec with Some bs => given_bin bs (-1) | None => own_bin count v end in
  let binm m j := match spec with Some bs => given_bin bs (Z.of_nat j) | None => own_bin count (gcol m j) end in
  Bd (match vect d with Some v => Some (map (snap close (binv v)) v) | None => None end)
     (match mat d with Some m => Some (map (imap (fun j x => snap close (binm m j) x)) (ga m)) | None => None end)
     (wts d)
     (match spec with Some _ => None | None => Some
        (match vect d with Some v => Some [bwidth (binv v); boff (binv v)] | None => None end,
         match mat d with Some m => Some [map (fun j => bwidth (binm m j)) (seq 0 (gc m)); map (fun j => boff (binm m j)) (seq 0 (gc m))] | None => None end) end).

(** ---------- 365-380, apop_vector_moving_average ---------- *)
(** 374-377: one element *)
Definition average_at (v : list R) (half i : nat) : res R :=
  do s <- fold_left (fun r j => do acc <- r; match v !! Z.to_nat (j + Z.of_nat i + Z.of_nat half) with Some x => Ok (acc + x) | None => UB end)
            (map (fun k => (Z.of_nat k - Z.of_nat half)%Z) (seq 0 (2 * half + 1))) (Ok 0);
  Ok (s / INR (half * 2 + 1)).
Fixpoint sequence {A} (l : list (res A)) : res (list A) := match l with [] => Ok [] | x :: r => do a <- x; do b <- sequence r; Ok (a :: b) end.
(** [Ok None]: NULL.  371: the subtraction is unsigned, so the test is for zero; a wider band asks GSL for about 2^64 elements: UB (the error handler) *)
Definition moving_average (v : option (list R)) (bandwidth : nat) : res (option (list R)) :=
  match v with
  | None => Ok None
  | Some v => if (bandwidth =? 0)%nat then Ok (Some v) else
      let half := (bandwidth / 2)%nat in
      if (length v =? half * 2)%nat then Ok None
      else if (length v <? half * 2)%nat then UB
      else do l <- sequence (map (average_at v half) (seq 0 (length v - half * 2))); Ok (Some l)
  end.

(** ---------- 77-92, the chi-squared statistic and df-1: [None] is infinity.  Pairs of the observed weight and the expected p ---------- *)
Fixpoint gof_loop (l : list (R * R)) (df : Z) (diff : R) : option R * Z :=
  match l with
  | [] => (Some diff, df)
  | (o, e) :: r => if Req_EM_T e 0 then (None, df) else if Req_EM_T o 0 then gof_loop r (df - 1) diff else gof_loop r df (diff + (o - e) ^ 2 / e)
  end.
Definition gof (l : list (R * R)) : option R * Z := let '(d, df) := gof_loop l (Z.of_nat (length l)) 0 in (d, (df - 1)%Z).

(** ---------- 244-258, the greatest distance: [rows]: weight of each row (None: no weights) and the cdf of m2 there ---------- *)
Fixpoint ks_loop (n : nat) (rows : list (option R * R)) (sum worst : R) : R :=
  match rows with
  | [] => worst
  | (w, c) :: r => let sum' := sum + match w with Some x => x | None => 1 / INR n end in ks_loop n r sum' (Rmax worst (Rabs (sum' - c)))
  end.
(** [rows2]: the same for the rows of m2, again with the cdf of m2, if m2 is a PMF.  GSL_NEGINF is modelled by the first distance *)
Definition ks_distance (rows : list (option R * R)) (rows2 : option (list (option R * R))) : R :=
  let start := match rows with (w, c) :: _ => Rabs ((match w with Some x => x | None => 1 / INR (length rows) end) - c) | [] => 0 end in
  let d := ks_loop (length rows) rows 0 start in
  match rows2 with Some r => ks_loop (length r) r 0 d | None => d end.

(** ---------- 186-211, psmirnov2x ---------- *)
(** 199: q *)
Definition smirnov_q (x : R) (m n : nat) : R := (/ 2 + rfloor (x * INR m * INR n - / 10 ^ 7)) / (INR m * INR n).
Definition above (a q : R) : bool := bool_of (Rlt_dec q a).
(** 202-203 *)
Definition u0 (q : R) (n : nat) : list R := map (fun j => if above (INR j / INR n) q then 0 else 1) (seq 0 (n + 1)).
(** 207-209: the rest of the row: [prev] is u[j-1] *)
Fixpoint u_rest (q : R) (m n i : nat) (w : R) (j : nat) (u : list R) (prev : R) : list R :=
  match u with
  | [] => []
  | x :: r => let y := if above (Rabs (INR i / INR m - INR j / INR n)) q then 0 else w * x + prev in y :: u_rest q m n i w (S j) r y
  end.
(** 204-209: step [i] *)
Definition u_step (q : R) (m n i : nat) (u : list R) : list R :=
  let w := INR i / (INR i + INR n) in
  match u with [] => [] | x :: r => let y := if above (INR i / INR m) q then 0 else w * x in y :: u_rest q m n i w 1 r y end.
Definition psmirnov2x (x : R) (m0 n0 : nat) : R :=
  let '(m, n) := if (n0 <? m0)%nat then (n0, m0) else (m0, n0) in
  let q := smirnov_q x m n in
  nth n (fold_left (fun u i => u_step q m n i u) (seq 1 m) (u0 q n)) 0.

(** ---------- 101-148, matrices in one block, row by row ---------- *)
Definition ent (m : nat) (A : list R) (i j : nat) : R := nth (i * m + j) A 0.
Definition m_multiply (A B : list R) (m : nat) : list R :=
  flat_map (fun i => map (fun j => fold_left (fun s k => s + ent m A i k * ent m B k j) (seq 0 m) 0) (seq 0 m)) (seq 0 m).
Definition p140 : R := 10 ^ 140.
(** 142-146 *)
Definition rescale (V : list R) (e : Z) (m : nat) : list R * Z :=
  if Rlt_dec p140 (ent m V (m / 2) (m / 2)) then (map (fun x => x * / p140) V, (e + 140)%Z) else (V, e).
(** 116-148; the recursion halves n *)
Fixpoint m_power (fuel : nat) (A : list R) (eA : Z) (m n : nat) : list R * Z :=
  match fuel with
  | O => (A, eA)
  | S fuel' => if (n =? 1)%nat then (A, eA) else
      let '(V, eV) := m_power fuel' A eA m (n / 2) in
      let B := m_multiply V V m in let eB := (2 * eV)%Z in
      if (n mod 2 =? 0)%nat then rescale B eB m else rescale (m_multiply A B m) (eA + eB)%Z m
  end.
(** 150-184, kolmogorov_2x; 164-168: k, m, h *)
Definition kol_k (n : nat) (d : R) : nat := Z.to_nat (Int_part (INR n * d) + 1).
Definition kol_H (m : nat) (h : R) : list R :=
  flat_map (fun i => map (fun j =>
    (((if (i + 1 <? j)%nat then 0 else 1) - (if (j =? 0)%nat then h ^ (i + 1) else 0) - (if (i =? m - 1)%nat then h ^ (m - j) else 0)
      + (if (i =? m - 1)%nat && (j =? 0)%nat then (if Rlt_dec 0 (2 * h - 1) then (2 * h - 1) ^ m else 0) else 0))
     / (if (i + 1 <=? j)%nat then 1 else INR (fact (i + 1 - j))))) (seq 0 m)) (seq 0 m).
(** 176-183: s and eQ; the loop over i *)
Definition kol_scale (n : nat) (s : R) (e : Z) : R * Z :=
  fold_left (fun '(s, e) i => let s' := s * INR i / INR n in if Rlt_dec s' (/ p140) then (s' * p140, (e - 140)%Z) else (s', e)) (seq 1 n) (s, e).
Definition kolmogorov_2x (n : nat) (d : R) : R :=
  let k := kol_k n d in let m := (2 * k - 1)%nat in let h := INR k - INR n * d in
  let '(Q, eQ) := m_power n (kol_H m h) 0 m n in
  let '(s, e) := kol_scale n (ent m Q (k - 1) (k - 1)) eQ in s * powerRZ 10 e.
