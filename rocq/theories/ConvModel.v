(** Model of parts of apop_conversions.m4.c: rank format (250-303), crosstabs (76-223), filling (859-940).
    Doubles are reals (StatsModel.v). *)
From Coq Require Import Reals.
From Verif Require Import DataModel StatsModel.
Local Open Scope list_scope.
Local Open Scope nat_scope.

(** -------- rank format -------- *)
(** C's conversion of a double to an integer: truncation toward zero *)
Definition trunc (x : R) : Z := if Rle_dec 0 x then Int_part x else (- Int_part (- x))%Z.
(** gsl_vector_max, gsl_matrix_max (GSL): a running maximum from the first element; [None]: empty *)
Definition gsl_max (v : list R) : option R :=
  match v with [] => None | x :: _ => Some (fold_left (fun m y => if Rlt_dec m y then y else m) v x) end.
(** ( *gsl_matrix_ptr(out->matrix, 0, x))++; outside the row: GSL's range error (abort): UB *)
Definition bump (row : list R) (x : R) : res (list R) :=
  let k := trunc x in
  if (0 <=? k)%Z && (k <? Z.of_nat (length row))%Z then Ok (alter (fun c => (c + 1)%R) (Z.to_nat k) row) else UB.
Fixpoint bumps (row : list R) (l : list R) : res (list R) :=
  match l with [] => Ok row | x :: l' => do r <- bump row x; bumps r l' end.
(** the two operands of GSL_MAX at 267-268: the maximum of the part, or min_bins when there is no such part *)
Definition part_max (o : option (list R)) (min_bins : Z) : res R :=
  match o with None => Ok (IZR min_bins) | Some v => match gsl_max v with Some x => Ok x | None => UB end end.
(** apop_conversions.m4.c:261-277 apop_data_rank_compress.  The loops over (i,j), in row order, are a walk over the
    concatenated rows.  calloc(1, upper_bound+1) with upper_bound+1 <= 0 makes no matrix, which is then dereferenced
    if there is any observation. *)
Definition rank_compress (d : page R) (min_bins : Z) : res (page R) :=
  do a <- part_max (option_map (fun m => concat (ga m)) (mat d)) min_bins;
  do b <- part_max (vect d) min_bins;
  let upper_bound := trunc (if Rlt_dec b a then a else b) in                 (* GSL_MAX(a,b) = a > b ? a : b *)
  let obs := match mat d with Some m => concat (ga m) | None => [] end ++ match vect d with Some v => v | None => [] end in
  if (upper_bound + 1 <=? 0)%Z then UB
  else
    do row <- bumps (replicate (Z.to_nat (upper_bound + 1)) 0%R) obs;
    Ok (Pg None (Some (Gr 1 (Z.to_nat (upper_bound + 1)) [row])) None None name_alloc None).

(** number of turns of `for (int j=0; j < x; j++)` *)
Definition turns (x : R) : nat := Z.to_nat (- Int_part (- x)).
(** 296: gsl_vector_set(out->vector, posn++, k), n times; outside the vector: UB *)
Fixpoint put_n (n : nat) (v : list (option R)) (posn : nat) (k : nat) : res (list (option R) * nat) :=
  match n with
  | 0 => Ok (v, posn)
  | S n' => if posn <? length v then put_n n' (<[posn := Some (INR k)]> v) (S posn) k else UB
  end.
Fixpoint put_row (row : list R) (k : nat) (v : list (option R)) (posn : nat) : res (list (option R) * nat) :=
  match row with
  | [] => Ok (v, posn)
  | x :: row' => do (v', posn') <- put_n (turns x) v posn k; put_row row' (S k) v' posn'
  end.
Fixpoint put_rows (rows : list (list R)) (v : list (option R)) (posn : nat) : res (list (option R) * nat) :=
  match rows with
  | [] => Ok (v, posn)
  | r :: rows' => do (v', posn') <- put_row r 0 v posn; put_rows rows' v' posn'
  end.
(** apop_conversions.m4.c:286-299 apop_data_rank_expand: the vector of the returned set ([None]: NULL returned); a cell
    never written is [None].  in->matrix is dereferenced unconditionally at 293. *)
Definition rank_expand (d : page R) : res (option (list (option R))) :=
  let total_ct := trunc ((match mat d with Some m => matrix_sum m | None => 0 end)
                       + (match vect d with Some v => vector_sum v | None => 0 end)) in
  if (total_ct =? 0)%Z then Ok None
  else if (total_ct <? 0)%Z then UB
  else match mat d with
       | None => UB
       | Some m => do (v, _) <- put_rows (ga m) (replicate (Z.to_nat total_ct) None) 0; Ok (Some v)
       end.

(** -------- crosstabs -------- *)
(** apop_conversions.m4.c:76-85 find_cat_index; the do-while loop, from position i.  [fuel] bounds the turns. *)
Fixpoint cat_loop (fuel : nat) (d : list string) (r : string) (start_from size i : nat) : res Z :=
  match fuel with
  | 0 => Fuel
  | S f =>
    match d !! i with
    | None => UB
    | Some s => if String.eqb s r then Ok (Z.of_nat i)
                else let i' := S i mod size in
                     if i' =? start_from then Ok (-2)%Z else cat_loop f d r start_from size i'
    end
  end.
Definition find_cat_index (fuel : nat) (d : list string) (r : string) (start_from size : nat) : res Z :=
  if size =? 0 then UB else cat_loop fuel d r start_from size (start_from mod size).

(** 152-158: one record (row label, column label, value); [num]: atof of the text.  State: matrix, i, j.
    [inr]: label not found, error 'n', the matrix as filled so far *)
Section Cross.
Context {E : Type} (zero : E) (num : string -> E).
Definition xset (m : grid E) (i j : nat) (x : E) : grid E := Gr (gr m) (gc m) (alter (fun r => <[j := x]> r) i (ga m)).
Fixpoint xfill (fuel : nat) (rl cl : list string) (recs : list (string * string * string)) (i j : nat) (m : grid E)
  : res (grid E * bool) :=
  match recs with
  | [] => Ok (m, true)
  | (r, c, x) :: recs' =>
    do i' <- find_cat_index fuel rl r i (length rl);
    do j' <- find_cat_index fuel cl c j (length cl);
    if (i' =? -2)%Z || (j' =? -2)%Z then Ok (m, false)
    else xfill fuel rl cl recs' (Z.to_nat i') (Z.to_nat j') (xset m (Z.to_nat i') (Z.to_nat j') (num x))
  end.
(** A query result: failed (NULL or ->error) or the rows.  The database is not modelled: the three results are inputs. *)
Inductive qres (A : Type) := QNull | QError | QRows (rows : list A).
Arguments QNull {A}. Arguments QError {A}. Arguments QRows {A}.
(** What apop_db_to_crosstab leaves: the set returned (error, row names, column names, matrix), [None] = NULL, and whether
    apop_opts.db_name_column was put back (line 164). *)
Record xout := XO { xerr : option ascii; xrow : list string; xcol : list string; xmat : option (grid E) }.
(** apop_conversions.m4.c:111-166 apop_db_to_crosstab.  [recs]: the query at 135, [d1], [d2]: those of 141 and 146.  At
    153 i is still the count left by the loop at 148-149. *)
Definition db_to_crosstab (fuel : nat) (recs : qres (string * string * string)) (d1 d2 : qres string) : res (option xout * bool) :=
  match recs with
  | QNull => Ok (None, false)                                                 (* 136: returns before 164 *)
  | QError => Ok (Some (XO None [] [] None), true)                            (* 137: no error code set *)
  | QRows recs =>
    match d1 with
    | QRows rl =>
      let n := add_all name_alloc rl "r" in
      match d2 with
      | QRows cl =>
        let n := add_all n cl "c" in
        do (m, good) <- xfill fuel (rown n) (coln n) recs (length cl) 0
                          (Gr (length rl) (length cl) (replicate (length rl) (replicate (length cl) zero)));
        Ok (Some (XO (if good then None else Some "n"%char) (rown n) (coln n) (Some m)), true)
      | _ => Ok (Some (XO (Some "q"%char) (rown n) [] None), true)
      end
    | _ => Ok (Some (XO (Some "q"%char) [] [] None), true)
    end
  end.

(** apop_conversions.m4.c:192-225 apop_crosstab_to_db: the records inserted, in order.  A missing name is written by sprintf
    into a buffer of (int)log10(msize)+1 bytes, [digits msize]; it needs a letter, the digits of the index and the
    terminator.  [show]: the %g (or 0/0) form of a number. *)
Context (show : E -> string).
Fixpoint digits_fuel (fuel n : nat) : nat := match fuel with 0 => 1 | S f => if n <? 10 then 1 else S (digits_fuel f (n / 10)) end.
Definition digits (n : nat) : nat := digits_fuel n n.
(** %i *)
Fixpoint dec_fuel (fuel n : nat) (acc : string) : string :=
  match fuel with
  | 0 => acc
  | S f => let acc := String (ascii_of_nat (48 + n mod 10)) acc in if n <? 10 then acc else dec_fuel f (n / 10) acc
  end.
Definition label (prefix : ascii) (given : list string) (i bufsize : nat) : res string :=
  match given !! i with
  | Some s => Ok s
  | None => if 2 + digits i <=? bufsize then Ok (String prefix (dec_fuel (S i) i EmptyString)) else UB
  end.
Definition bufsize (n : nat) : nat := if n =? 0 then 0 else digits n.
Definition to_recs (pc : ascii) (rows cols : list string) (rbuf cbuf : nat) (g : list (list string)) : res (list (string * string * string)) :=
  do l <- rmapM (fun '(i, r) =>
            do rn <- label "r" rows i rbuf;
            rmapM (fun '(j, x) => do cn <- label pc cols j cbuf; Ok (rn, cn, x)) (zip (seq 0 (length r)) r))
         (zip (seq 0 (length g)) g);
  Ok (concat l).
Definition crosstab_to_db (d : page E) : res (list (string * string * string)) :=
  let n := nms d in
  let rbuf := bufsize (msz1 d) in
  let cbuf := bufsize (Nat.max (msz2 d) (tsz2 d)) in
  do a <- match mat d with Some m => to_recs "c" (rown n) (coln n) rbuf cbuf (map (map show) (ga m)) | None => Ok [] end;
  do b <- match txt d with Some t => to_recs "t" (rown n) (txtn n) rbuf cbuf (ga t) | None => Ok [] end;
  Ok (a ++ b).
End Cross.
Arguments QNull {A}. Arguments QError {A}. Arguments QRows {A}.

(** -------- filling -------- *)
Section Fill.
Context {E : Type}.
(** 873-875: the positions of the double loop, (i, j), j from start *)
Definition fill_positions (start : bool) (height fin : nat) : list (Z * Z) :=
  flat_map (fun i => map (fun j => (Z.of_nat i, (Z.of_nat j - (if start then 1 else 0))%Z))
                         (seq 0 (fin + if start then 1 else 0))) (seq 0 height).
Fixpoint fill_loop (ps : list (Z * Z)) (ap : list E) (k : nat) (p : page E) : res (page E) :=
  match ps with
  | [] => Ok p
  | (i, j) :: ps' => match ap !! k with
                     | None => UB                                             (* reads past the array *)
                     | Some x => fill_loop ps' ap (S k) (fst (set_at p i j x))
                     end
  end.
(** apop_conversions.m4.c:859-877 apop_data_fill_base (in non-NULL); [ap]: the array *)
Definition data_fill (p : page E) (ap : list E) : res (page E) :=
  let '(start, height) := match vect p with Some v => (true, length v) | None => (false, 0) end in
  let '(fin, height) := match mat p with Some m => (gc m, gr m) | None => (0, height) end in
  fill_loop (fill_positions start height fin) ap 0 p.

(** apop_conversions.m4.c:891-896 apop_vector_fill_base *)
Fixpoint vfill_loop (n i : nat) (v ap : list E) : res (list E) :=
  match n with
  | 0 => Ok v
  | S n' => match ap !! i with None => UB | Some x => vfill_loop n' (S i) (<[i := x]> v) ap end
  end.
Definition vector_fill (v ap : list E) : res (list E) := vfill_loop (length v) 0 v ap.
End Fill.

(** apop_conversions.m4.c:923-938 apop_text_fill_base on a text grid; the array holds [text] and then the closing NULL, after
    which nothing may be read.  NULL is written as nan_string (apop_data.m4.c:1001-1003; nan_string non-NULL); any other
    string is passed to apop_text_set as its format: a percent sign makes vasprintf read absent arguments (UB; a doubled
    percent sign, which would come out single, is counted as UB too: a simplification). *)
Fixpoint tfill_loop (ps : list (nat * nat)) (text : list (option string)) (ctr : nat) (nan_string : string) (g : grid string) : res (grid string) :=
  match ps with
  | [] => Ok g
  | (i, j) :: ps' =>
    do s <- match (text ++ [None]) !! ctr with
            | None => UB
            | Some (Some s) => if has_pct s then UB else Ok s
            | Some None => Ok nan_string
            end;
    tfill_loop ps' text (S ctr) nan_string (Gr (gr g) (gc g) (alter (fun r => <[j := s]> r) i (ga g)))
  end.
Definition text_fill (g : grid string) (text : list (option string)) (nan_string : string) : res (grid string) :=
  tfill_loop (flat_map (fun i => map (fun j => (i, j)) (seq 0 (gc g))) (seq 0 (gr g))) text 0 nan_string g.
