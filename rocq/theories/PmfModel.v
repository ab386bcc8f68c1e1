(** Model of model/apop_pmf.c: row comparison, apop_data_pmf_compress, draws, p and cdf. *)
From Coq Require Import Reals.
From Verif Require Import DataModel.
Local Open Scope list_scope.
Local Open Scope nat_scope.

Section Compress.
Context {E : Type}.
Variables (eqd : E -> E -> bool) (nan : E -> bool).   (* C's == on doubles, gsl_isnan *)
Variables (one : E) (add : E -> E -> E).
Implicit Types p q : page E.

Definition veq (x y : E) : bool := eqd x y || (nan x && nan y).
Fixpoint all_eq {A} (e : A -> A -> bool) (l r : list A) : bool :=
  match l, r with [], [] => true | x :: l', y :: r' => e x y && all_eq e l' r' | _, _ => false end.

(** model/apop_pmf.c:184-216 are_equal(Apop_r(p,i), Apop_r(q,j)).  A one-row view (apop.m4.h:860-882) of a row
    beyond the end of the text keeps textsize[1] and a pointer past the rows: comparing such texts is UB. *)
Definition rows_equal p (i : nat) q (j : nat) : res bool :=
  let v := match vect p, vect q with
           | Some a, Some b => match a !! i, b !! j with Some x, Some y => veq x y | None, None => true | _, _ => false end
           | Some a, None => negb (i <? length a)
           | None, Some b => negb (j <? length b)
           | None, None => true end in
  if negb v then Ok false else
  let m := match mat p, mat q with
           | Some a, Some b => match ga a !! i, ga b !! j with
                               | Some x, Some y => (gc a =? gc b) && all_eq veq x y
                               | None, None => true | _, _ => false end
           | Some a, None => negb (i <? gr a)
           | None, Some b => negb (j <? gr b)
           | None, None => true end in
  if negb m then Ok false else
  if tsz2 p =? 0 then Ok (tsz2 q =? 0)
  else if negb (tsz2 p =? tsz2 q) then Ok false
  else match txt p, txt q with
       | Some a, Some b => match ga a !! i, ga b !! j with Some x, Some y => Ok (all_eq String.eqb x y) | _, _ => UB end
       | _, _ => UB
       end.

(** model/apop_pmf.c:357-365: the j loop for subject row i over the rows js; state: weights, cutme, not_done *)
Definition cstate : Type := list E * list bool * bool.
Fixpoint j_loop p (i : nat) (js : list nat) (st : cstate) : res cstate :=
  match js with
  | [] => Ok st
  | j :: js' =>
    let '(w, cut, nd) := st in
    match cut !! j with
    | None => UB
    | Some true => j_loop p i js' st
    | Some false =>
      do e <- rows_equal p i p j;
      if e then
        match w !! i, w !! j with
        | Some a, Some b => j_loop p i js' (<[i := add a b]> w, <[j := true]> cut, true)
        | _, _ => UB     (* one-row views without weights *)
        end
      else j_loop p i js' (w, cut, true)
    end
  end.
(** model/apop_pmf.c:353-366: rows is the list of subjects still to come, N the number of rows *)
Fixpoint i_loop p (N : nat) (rows : list nat) (st : cstate) : res cstate :=
  match rows with
  | [] => Ok st
  | i :: rows' =>
    let '(w, cut, nd) := st in
    if negb nd then Ok st
    else match cut !! i with
         | None => UB
         | Some true => i_loop p N rows' st
         | Some false => do st' <- j_loop p i (seq (S i) (N - S i)) (w, cut, false); i_loop p N rows' st'
         end
  end.
(** model/apop_pmf.c:341-371 apop_data_pmf_compress *)
Definition pmf_compress p : res (page E) :=
  let N := maxsize p in
  if N =? 0 then Ok p
  else
    let p := match wts p with Some _ => p | None => set_wts p (Some (replicate N one)) end in
    if N =? 1 then Ok p
    else match wts p with
         | None => UB
         | Some w =>
           do st <- i_loop p N (seq 0 N) (w, replicate N false, true);
           let '(w', cut, _) := st in
           Ok (rm_rows (set_wts p (Some w')) (Some cut) None)
         end.

(** model/apop_pmf.c:218-224 find_in_data(searchme, Apop_r(d, k)) *)
Fixpoint find_row (s d : page E) (k : nat) (rows : list nat) : res (option nat) :=
  match rows with
  | [] => Ok None
  | i :: rows' => do e <- rows_equal d k s i; if e then Ok (Some i) else find_row s d k rows'
  end.
Definition find_in_data (s d : page E) (k : nat) : res (option nat) := find_row s d k (seq 0 (maxsize s)).
End Compress.

(** -------- draws: the binary search, model/apop_pmf.c:141-166 --------
    [below k]: cdf[k] < draw.  Reading cdf[-1] or beyond the array is UB. *)
Section Search.
Variable size : nat.
Variable below : nat -> bool.
Definition rd (k : nat) : res bool := if k <? size then Ok (below k) else UB.
Fixpoint search (fuel top bottom current : nat) : res nat :=
  match fuel with
  | 0 => Fuel
  | S fuel' =>
    do c <- rd current;
    match current with
    | 0 => UB                                             (* cdf[current-1] with current = 0 *)
    | S prev =>
      do cp <- rd prev;
      if negb c && cp then Ok current
      else
        let '(top', bottom', cur') :=
          if c then (top, current, if current =? top - 1 then S current else (current + top) / 2)
          else if negb cp then (current, bottom, if current =? S bottom then current - 1 else (bottom + current) / 2)
          else (top, bottom, current) in
        if cur' =? 0 then do c0 <- rd 0; if negb c0 then Ok 0 else search fuel' top' bottom' cur'
        else search fuel' top' bottom' cur'
    end
  end.
(** 146-152 *)
Definition draw_index (fuel : nat) : res nat :=
  let top := size - 1 in
  let current := top / 2 in
  if current =? 0 then
    if negb (size =? 1) then do c <- rd 0; Ok (if c then 1 else 0) else Ok 0
  else search fuel top 0 current.
End Search.

(** 171-178: the draw written out, as the list of the cells written, in order of position (None: position
    never written; with both parts the first matrix column is skipped because the counter starts at 1) *)
Definition draw_out {E} (v : option E) (row : option (list E)) : list E :=
  match v, row with
  | Some x, Some r => x :: drop 1 r
  | Some x, None => [x]
  | None, Some r => r
  | None, None => []
  end.

Local Open Scope R_scope.
(** setup_cmf, model/apop_pmf.c:89-107: running sums, scaled by the last one; None: error 'f'.  Doubles are
    taken as reals. *)
Fixpoint running (acc : R) (w : list R) : list R :=
  match w with [] => [] | x :: w' => (x + acc) :: running (x + acc) w' end.
Definition rsum (w : list R) : R := fold_left Rplus w 0.
Definition rlast (w : list R) : R := List.last w 0.
Definition setup_cmf (w : list R) : option (list R) :=
  let c := running 0 w in
  if Req_EM_T (rlast c) 0 then None else Some (map (fun x => x * (1 / rlast c)) c).
Definition rltb (a b : R) : bool := if Rlt_dec a b then true else false.
(** one draw with weights: the row index for uniform draw u *)
Definition pmf_draw (fuel : nat) (w : list R) (u : R) : res (option nat) :=
  match setup_cmf w with
  | None => Ok None
  | Some cdf => do k <- draw_index (length w) (fun k => rltb (nth k cdf 0) u) fuel; Ok (Some k)
  end.
(** 137-138: without weights; C truncates the product, which is nonnegative *)
Definition trunc (x : R) : nat := Z.to_nat (Int_part x).
Definition pmf_draw_unweighted (maxsize : nat) (u : R) : nat := trunc (u * INR (maxsize - 1)).

(** pmf_cmf, model/apop_pmf.c:269-284, given the index found: unweighted and weighted *)
Definition cmf_at (w : option (list R)) (maxsize : nat) (found : option nat) : option R :=
  match found with
  | None => Some 0
  | Some k =>
    match w with
    | None => Some (INR k / INR maxsize)
    | Some w => match setup_cmf w with None => None | Some cdf => Some (rsum (take (k + 1) cdf)) end
    end
  end.
(** pmf_p, model/apop_pmf.c:226-246, given the indices found for the rows of the input; [total] is the
    total_weight recorded by estim *)
Fixpoint p_of (w : option (list R)) (total : R) (maxsize : nat) (found : list (option nat)) : R :=
  match found with
  | [] => 1
  | None :: _ => 0
  | Some k :: fs => (match w with Some w => nth k w 0 / total | None => 1 / INR maxsize end) * p_of w total maxsize fs
  end.
