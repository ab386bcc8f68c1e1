(** Heap model of the text grid (char ***text; size_t textsize[2]): allocation, resizing, transposition. *)
From Verif Require Export Base.

(** One row: the array text[i]; its length is the number of cells malloc'ed, [None] = not yet written. *)
Notation trow := (list (option string)).
(** [tptr]: the array of row pointers ([None] = NULL pointer); [trows],[tcols] = textsize[0], textsize[1].
    Sharing of the static blank string (apop_nul_string) is not modelled: a blank cell is "". *)
Record tstate := TS { trows : nat; tcols : nat; tptr : option (list trow) }.

Definition tread (rs : list trow) (i j : nat) : res string :=
  match rs !! i with
  | Some r => match r !! j with Some (Some s) => Ok s | _ => UB end
  | None => UB
  end.
Definition twrite (rs : list trow) (i j : nat) (s : string) : res (list trow) :=
  match rs !! i with
  | Some r => if j <? length r then Ok (<[i := <[j := Some s]> r]> rs) else UB
  | None => UB
  end.

(** reading cells (i, from..from+k-1), as done before free()ing them *)
Fixpoint tread_run (rs : list trow) (i from k : nat) : res unit :=
  match k with 0 => Ok tt | S k' => do _ <- tread rs i from; tread_run rs i (S from) k' end.
Fixpoint tread_rows (rs : list trow) (i n from k : nat) : res unit :=
  match n with 0 => Ok tt | S n' => do _ <- tread_run rs i from k; tread_rows rs (S i) n' from k end.

(** writing [s] in cells from .. from+k-1 of a freshly malloc'ed row *)
Fixpoint fill_row (r : trow) (from k : nat) : res trow :=
  match k with
  | 0 => Ok r
  | S k' => if from <? length r then fill_row (<[from := Some EmptyString]> r) (S from) k' else UB
  end.

Definition row_realloc (r : trow) (n : nat) : trow := take n r ++ replicate (n - length r) None.

Fixpoint map_res {A B} (f : A -> res B) (l : list A) : res (list B) :=
  match l with
  | [] => Ok []
  | x :: l' => do y <- f x; do ys <- map_res f l'; Ok (y :: ys)
  end.

(** apop_data.m4.c:1023-1083 apop_text_alloc.  glibc realloc(p,0) frees and returns NULL. *)
Definition text_alloc (t : tstate) (row col : nat) : res tstate :=
  if ((row =? 0) && negb (col =? 0)) || ((col =? 0) && negb (row =? 0)) then Ok t   (* 1024-1025 *)
  else
    match tptr t with
    | None =>                                                                        (* 1027-1040 *)
        Ok (TS row col (if row =? 0 then None else Some (replicate row (replicate col (Some EmptyString)))))
    | Some rs =>
        let rows_now := trows t in
        let cols_now := tcols t in
        do rs1 <- (if row <? rows_now then                                           (* 1044-1055 *)
                     do _ <- tread_rows rs row (rows_now - row) 0 cols_now; Ok (take row rs)
                   else Ok rs);
        do rs2 <- (if rows_now <? row then                                           (* 1056-1067 *)
                     do r <- fill_row (replicate col None) 0 cols_now;
                     Ok (take rows_now rs1 ++ replicate (row - rows_now) r)
                   else Ok rs1);
        do _ <- (if col <? cols_now then tread_rows rs2 0 row col (cols_now - col) else Ok tt);  (* 1068-1072 *)
        do rs3 <- (if cols_now =? col then Ok rs2
                   else do a <- map_res (fun r => fill_row (row_realloc r col) cols_now (col - cols_now)) (take row rs2);
                        Ok (a ++ drop row rs2));                                      (* 1073-1078 *)
        Ok (TS row col (if row =? 0 then None else Some rs3))                         (* 1080-1081 *)
    end.

(** apop_data.m4.c:995-1010 apop_text_set with the formatted string [s] (fmt==NULL: [s] is
    apop_opts.nan_string).  Returns the int returned.  The comparison (997) is of size_t with (int)row+1:
    modelled for row, col < 2^31 - 1. *)
Definition text_set (t : tstate) (row col : nat) (s : string) : res (tstate * Z) :=
  if (trows t <? row + 1) || (tcols t <? col + 1) then Ok (t, (-1)%Z)
  else match tptr t with
       | None => UB
       | Some rs => do _ <- tread rs row col; do rs' <- twrite rs row col s; Ok (TS (trows t) (tcols t) (Some rs'), 0%Z)
       end.

(** swap of cells (i,j) and (j,i): apop_data.m4.c:1178-1180 *)
Definition tswap (rs : list trow) (p : nat * nat) : res (list trow) :=
  let '(i, j) := p in
  do a <- tread rs i j; do b <- tread rs j i;
  do rs1 <- twrite rs i j b; twrite rs1 j i a.
Fixpoint tswaps (rs : list trow) (ps : list (nat * nat)) : res (list trow) :=
  match ps with [] => Ok rs | p :: ps' => do rs' <- tswap rs p; tswaps rs' ps' end.
(** the index pairs of the double loop 1176-1177 *)
Definition upper (n : nat) : list (nat * nat) :=
  flat_map (fun i => map (fun j => (i, j)) (seq (i + 1) (n - (i + 1)))) (seq 0 n).

(** text[i][j] = text[j][i] for j in from..from+k-1 (1155-1158, 1169-1172) *)
Fixpoint copy_col (rs : list trow) (i from k : nat) : res (list trow) :=
  match k with
  | 0 => Ok rs
  | S k' => do s <- tread rs from i; do rs' <- twrite rs i from s; copy_col rs' i (S from) k'
  end.
(** 1151-1159: rows 0..n-1 are lengthened to [orows] cells *)
Fixpoint extend_rows (rs : list trow) (i n ocols orows : nat) : res (list trow) :=
  match n with
  | 0 => Ok rs
  | S n' =>
    match rs !! i with
    | None => UB
    | Some r => do rs' <- copy_col (<[i := row_realloc r orows]> rs) i ocols (orows - ocols);
                extend_rows rs' (S i) n' ocols orows
    end
  end.
(** 1165-1173: rows i.. are malloc'ed with [orows] cells *)
Fixpoint add_rows (rs : list trow) (i n orows : nat) : res (list trow) :=
  match n with
  | 0 => Ok rs
  | S n' => do rs' <- copy_col (take i rs ++ [replicate orows None]) i 0 orows;
            add_rows rs' (S i) n' orows
  end.

(** apop_data.m4.c:1146-1183, the in-place transposition of the text grid (both sizes nonzero) *)
Definition text_transpose_inplace (t : tstate) : res tstate :=
  match tptr t with
  | None => UB
  | Some rs =>
    let orows := trows t in let ocols := tcols t in
    do rs1 <- (if ocols <? orows then extend_rows rs 0 ocols ocols orows else Ok rs);
    do rs2 <- (if orows <? ocols then add_rows rs1 orows (ocols - orows) orows else Ok rs1);
    do rs3 <- tswaps rs2 (upper (Nat.min orows ocols));
    Ok (TS ocols orows (Some rs3))
  end.

(** what a reader of text[i][j] inside textsize sees *)
Definition tcell (t : tstate) (i j : nat) : option string :=
  if (i <? trows t) && (j <? tcols t) then
    match tptr t with Some rs => match tread rs i j with Ok s => Some s | _ => None end | None => None end
  else None.
