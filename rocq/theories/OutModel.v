(** Model of the printing of data sets: apop_output.m4.c:177-193 (p_fn, print_core_v) and 224-313 (apop_data_print_core and its helpers); the output settings and pages are in OutPageModel.
    Texts are lists of bytes.  Doubles are reals: rounding in the arithmetic, NaN and the infinities are not modelled. *)
From Coq Require Import Reals.
From Verif Require Import Base.
Local Open Scope list_scope.
Local Open Scope nat_scope.

Notation str := (list ascii).
Definition sp : ascii := ascii_of_nat 32.
Definition pads (n : nat) : str := repeat sp n.
Definition lf : ascii := ascii_of_nat 10.
Definition ctab : ascii := ascii_of_nat 9.

(** ---- printf: the conversions used, as the C standard has them ---- *)
Definition dig (d : Z) : ascii := ascii_of_nat (48 + Z.to_nat d).
Fixpoint digits (fuel : nat) (n : Z) : str :=
  match fuel with
  | 0 => []
  | S fuel => if (n <? 10)%Z then [dig n] else digits fuel (n / 10)%Z ++ [dig (n mod 10)%Z]
  end.
(** %i of a number not below 0 *)
Definition decimal (n : Z) : str := digits (S (Z.to_nat (Z.log2 n))) n.
(** the [k] digits of n < 10^k, leading zeroes kept *)
Fixpoint fixed (k : nat) (n : Z) : str := match k with 0 => [] | S k => fixed k (n / 10)%Z ++ [dig (n mod 10)%Z] end.
(** a minimum width, blanks put before *)
Definition width (w : nat) (s : str) : str := pads (w - length s) ++ s.
(** the flag ' ': a blank where there is no minus sign *)
Definition signed (neg : bool) (s : str) : str := (if neg then "-"%char else sp) :: s.
Section Print.
(** %f: the nearest multiple of 10^-6; which one at a tie is left open.  [rnd]: a nearest integer *)
Context (rnd : R -> Z).
Definition to_int (x : R) : Z := if Rlt_dec x 0 then (- Int_part (- x))%Z else Int_part x.
Definition is_int (k : Z) : bool := (- 2147483648 <=? k)%Z && (k <=? 2147483647)%Z.
Definition fixed_text (x : R) : str :=
  let z := rnd (Rabs x * 1000000)%R in
  width 5 (signed (if Rlt_dec x 0 then true else false) (decimal (z / 1000000)%Z ++ "."%char :: fixed 6 (z mod 1000000)%Z)).
Definition int_text (k : Z) : str := width 5 (signed (k <? 0)%Z (decimal (Z.abs k))).
(** p_fn (177-180).  Converting to int a number out of the range of int is undefined *)
Definition p_fn (x : R) : res str :=
  let k := to_int x in
  if is_int k then Ok (if Req_EM_T x (IZR k) then int_text k else fixed_text x) else UB.

(** the parts of an apop_data set that are printed.  [otw]: textsize[1]; textsize[0] is the number of rows of text *)
Record nameset := Ns { ntitle : option str; nvec : option str; ncol : list str; ntext : list str; nrow : list str }.
Record odata := Od { ov : option (list R); om : option (grid R); ot : option (list (list str)); otw : nat; ow : option (list R); on : option nameset }.

Context (db_col : option str)   (* apop_opts.db_name_column *)
        (delim : str)           (* apop_opts.output_delimiter *)
        (screen : bool).        (* displaytype == 's' *)
(** a_pipe (231-235) *)
Definition a_pipe : str := if screen then [sp; "|"%char; sp] else delim.
(** get_max_strlen (224-229) *)
Definition max_len (l : list str) : nat := fold_left (fun m s => max m (length s)) l 0.
Fixpoint cat (l : list (res str)) : res str := match l with [] => Ok [] | r :: l => do a <- r; do t <- cat l; Ok (a ++ t) end.
Definition is_some {A} (o : option A) : bool := match o with Some _ => true | None => false end.
Definition nempty {A} (l : list A) : bool := match l with [] => false | _ => true end.
(** names with the delimiter between them (264-270, 275-281, 302-305) *)
Fixpoint names_text (l : list str) : str := match l with [] => [] | [s] => s | s :: l => s ++ delim ++ names_text l end.
(** 243-245: start, end, rowend (-1: 0 rows are printed) *)
Definition cols_end (d : odata) : nat := match om d with Some g => gc g | None => 0 end.
Definition rows_end (d : odata) : nat :=
  match om d with Some g => gr g | None => match ov d with Some v => length v | None => match ot d with Some t => length t | None => 0 end end end.
Definition col_names (n : nameset) : bool := is_some (nvec n) || nempty (ncol n) || nempty (ntext n).
(** 246-247 *)
Definition title_text (n : nameset) : str := match ntitle n with Some (c :: s) => ctab :: c :: s ++ [lf; lf] | _ => [] end.
(** 248-255: the test asks whether db_name_column is not NULL, or else looks at its first byte; so the name of the column is never printed *)
Definition corner (n : nameset) : res str :=
  if nempty (nrow n) && col_names n then
    match db_col with
    | None => UB
    | Some s => Ok (width (max_len (nrow n) + 2) [sp] ++ [sp; sp])
    end
  else Ok [].
(** 256-284: the line of names *)
Definition head_vec (d : odata) (n : nameset) : str := match ov d, nvec n with Some _, Some s => s | _, _ => [] end.
Definition head_mat (d : odata) (n : nameset) : str :=
  match om d with
  | None => []
  | Some _ => (if is_some (ov d) && nempty (ncol n) then (if is_some (nvec n) then sp else ctab) :: sp :: a_pipe else []) ++ names_text (ncol n)
  end.
Definition head_text (d : odata) (n : nameset) : str :=
  if negb (otw d =? 0) && nempty (ntext n) then
    (if (is_some (ov d) && is_some (nvec n)) || (is_some (om d) && nempty (ncol n)) then a_pipe else []) ++ names_text (ntext n)
  else [].
Definition heading (d : odata) : res str :=
  match on d with
  | None => Ok []
  | Some n => do c <- corner n;
              Ok (title_text n ++ c ++ head_vec d n ++ head_mat d n ++ head_text d n ++ if col_names n then [lf] else [])
  end.
(** 286-287 *)
Definition row_name (d : odata) (j : nat) : str :=
  match on d with
  | Some n => match nrow n !! j with Some s => width (max_len (nrow n) + 2) s ++ delim | None => [] end
  | None => []
  end.
(** 288-297: the vector's element (i = -1), then the matrix's row *)
Definition row_vec (d : odata) (j : nat) : res str :=
  match ov d with
  | None => Ok []
  | Some v => do x <- (match v !! j with Some x => p_fn x | None => Ok [sp] end);
              Ok (x ++ (if is_some (om d) then a_pipe else []) ++ (if 0 <? cols_end d then delim else []))
  end.
Definition mat_cell (g : grid R) (j i : nat) : res str :=
  do x <- (if (j <? gr g) && (i <? gc g) then match cell g j i with Some x => p_fn x | None => UB end else Ok [sp]);
  Ok (x ++ if (S i <? gc g) then delim else []).
Definition row_mat (d : odata) (j : nat) : res str :=
  match om d with None => Ok [] | Some g => cat (map (mat_cell g j) (seq 0 (gc g))) end.
(** 298-306 *)
Definition row_text (d : odata) (j : nat) : str :=
  match ot d with
  | None => []
  | Some t => (if is_some (ov d) || is_some (om d) then a_pipe else []) ++ (match t !! j with Some l => names_text l | None => [] end)
  end.
(** 307-310; the weights' stride is taken to be 1, as the code does *)
Definition row_weight (d : odata) (j : nat) : res str :=
  match ow d with
  | Some w => match w !! j with Some x => do t <- p_fn x; Ok (a_pipe ++ t) | None => Ok [] end
  | None => Ok []
  end.
Definition print_row (d : odata) (j : nat) : res str :=
  do v <- row_vec d j; do m <- row_mat d j; do w <- row_weight d j;
  Ok (row_name d j ++ v ++ m ++ row_text d j ++ w ++ [lf]).
(** apop_data_print_core (237-313), for a set that is not NULL *)
Definition print_core (d : odata) : res str :=
  do h <- heading d; do r <- cat (map (print_row d) (seq 0 (rows_end d))); Ok (h ++ r).
(** print_core_v (182-193), for a vector that is not NULL *)
Fixpoint vec_cells (l : list R) : res str :=
  match l with
  | [] => Ok []
  | [x] => p_fn x
  | x :: l => do a <- p_fn x; do t <- vec_cells l; Ok (a ++ delim ++ t)
  end.
Definition print_vector (l : list R) : res str := do t <- vec_cells l; Ok (t ++ [lf]).
End Print.
