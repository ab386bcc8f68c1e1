(** Flat-memory model of the matrix/vector resizing and stacking routines. *)
From Verif Require Export Base.

(** A block of doubles; [None]: allocated but not initialised. *)
Notation mem E := (list (option E)).

Section Mem.
Context {E : Type}.
Implicit Types m b : mem E.

(** realloc(data, n): keeps the common prefix, the rest is uninitialised (libc). *)
Definition realloc m (n : nat) : mem E := take n m ++ replicate (n - length m) None.
(** reading/writing a run of cells; outside the block: UB *)
Definition slice m (off n : nat) : res (mem E) :=
  if off + n <=? length m then Ok (take n (drop off m)) else UB.
Definition blit m (off : nat) (src : mem E) : res (mem E) :=
  if off + length src <=? length m then Ok (take off m ++ src ++ drop (off + length src) m) else UB.
(** memmove(m+dst, m+src, n): the source is read in full before writing (libc). *)
Definition memmove m (dst src n : nat) : res (mem E) := do s <- slice m src n; blit m dst s.

(** gsl_matrix: dimensions, block, and whether it is a view (block->data!=data, !owner or tda!=size2). *)
Record gmat := GM { size1 : nat; size2 : nat; block : mem E; is_view : bool }.
Record gvec := GV { vsize : nat; vblock : mem E; v_is_view : bool }.

(** gsl_matrix_alloc / gsl_vector_alloc (GSL): contents uninitialised. *)
Definition matrix_alloc (n1 n2 : nat) : gmat := GM n1 n2 (replicate (n1 * n2) None) false.
Definition vector_alloc (n : nat) : gvec := GV n (replicate n None) false.

(** apop_data.m4.c:1219-1224, narrowing: rows 1 .. min(size1,newheight)-1 are moved down, in that order.
    [k] rows left to do, [i] the row being moved; oldoffset = i*size2, newoffset = i*newwidth. *)
Fixpoint shrink_loop (k i oldw neww : nat) m : res (mem E) :=
  match k with
  | 0 => Ok m
  | S k' => do m' <- memmove m (i * neww) (i * oldw) neww; shrink_loop k' (S i) oldw neww m'
  end.

(** apop_data.m4.c:1229-1232, widening: rows height-1 down to 1 are moved up, last row first. At row i
    newoffset = (height-i)*newwidth, so the destination is height*newwidth - newoffset. *)
Fixpoint grow_loop (i height oldw neww : nat) m : res (mem E) :=
  match i with
  | 0 => Ok m
  | S i' => do m' <- memmove m (height * neww - (height - i) * neww) (i * oldw) oldw;
            grow_loop i' height oldw neww m'
  end.

(** apop_data.m4.c:1212-1240 apop_matrix_realloc.  [None] stands for a NULL pointer.
    In the widening case with min(size1,newheight)=0 the counter `size_t i = height-1` wraps around and the
    loop runs out of the block: UB. *)
Definition matrix_realloc (om : option gmat) (newh neww : nat) : res (option gmat) :=
  match om with
  | None => Ok (if (0 <? newh) && (0 <? neww) then Some (matrix_alloc newh neww) else None)
  | Some m =>
    if is_view m then Ok None
    else
      let height := Nat.min (size1 m) newh in
      if neww <? size2 m then
        do b <- shrink_loop (height - 1) 1 (size2 m) neww (block m);
        Ok (Some (GM newh neww (realloc b (newh * neww)) false))
      else if size2 m <? neww then
        if height =? 0 then UB
        else do b <- grow_loop (height - 1) height (size2 m) neww (realloc (block m) (newh * neww));
             Ok (Some (GM newh neww b false))
      else Ok (Some (GM newh neww (realloc (block m) (newh * neww)) false))
  end.

(** apop_data.m4.c:1262-1271 apop_vector_realloc *)
Definition vector_realloc (ov : option gvec) (n : nat) : option gvec :=
  match ov with
  | None => if 0 <? n then Some (vector_alloc n) else None
  | Some v => if v_is_view v then None else Some (GV n (realloc (vblock v) n) false)
  end.

(** gsl_vector_get/gsl_matrix_get on a block: element (i,j) *)
Definition melem (m : gmat) (i j : nat) : option (option E) := block m !! (i * size2 m + j).

(** gsl_vector_subvector(out, off, n) followed by gsl_vector_memcpy(&t, src) (apop_linear_algebra.m4.c:211-215) *)
Definition copy_into (v : gvec) (off : nat) (src : gvec) : res gvec :=
  do s <- slice (vblock src) 0 (vsize src);
  if off + vsize src <=? vsize v then
    do b <- blit (vblock v) off s; Ok (GV (vsize v) b (v_is_view v))
  else UB.

(** apop_linear_algebra.m4.c:186-217 apop_vector_stack; a refused in-place realloc (view) returns NULL and
    is then dereferenced: UB. *)
Definition vector_stack (v1 v2 : option gvec) (inplace : bool) : res (option gvec) :=
  match v1, v2 with
  | None, Some w => do o <- copy_into (vector_alloc (vsize w)) 0 w; Ok (Some o)
  | Some v, None =>
      if inplace then Ok (Some v) else do o <- copy_into (vector_alloc (vsize v)) 0 v; Ok (Some o)
  | None, None => Ok None
  | Some v, Some w =>
      do out <- (if inplace then
                   match vector_realloc (Some v) (vsize v + vsize w) with Some o => Ok o | None => UB end
                 else copy_into (vector_alloc (vsize v + vsize w)) 0 v);
      do o <- copy_into out (vsize v) w; Ok (Some o)
  end.

(** gsl_matrix_set_row(out, i, row i' of src) (GSL) *)
Definition set_row (out : gmat) (i : nat) (src : gmat) (i' : nat) : res gmat :=
  do r <- slice (block src) (i' * size2 src) (size2 src);
  if (i <? size1 out) && (size2 src =? size2 out) then
    do b <- blit (block out) (i * size2 out) r; Ok (GM (size1 out) (size2 out) b (is_view out))
  else UB.

(** gsl_matrix_set_col(out, j, column j' of src) (GSL), cell by cell *)
Fixpoint set_col_cells (k : nat) (out : mem E) (wout j : nat) (src : mem E) (wsrc j' : nat) : res (mem E) :=
  match k with
  | 0 => Ok out
  | S k' =>
    do o <- set_col_cells k' out wout j src wsrc j';
    do c <- slice src (k' * wsrc + j') 1;
    blit o (k' * wout + j) c
  end.
Definition set_col (out : gmat) (j : nat) (src : gmat) (j' : nat) : res gmat :=
  if (j <? size2 out) && (size1 src =? size1 out) then
    do b <- set_col_cells (size1 src) (block out) (size2 out) j (block src) (size2 src) j';
    Ok (GM (size1 out) (size2 out) b (is_view out))
  else UB.

(** loops `for i<n: set_row(out, off+i, src row i)` and likewise for columns, in increasing i *)
Fixpoint set_rows (n off : nat) (out src : gmat) : res gmat :=
  match n with 0 => Ok out | S n' => do o <- set_rows n' off out src; set_row o (off + n') src n' end.
Fixpoint set_cols (n off : nat) (out src : gmat) : res gmat :=
  match n with 0 => Ok out | S n' => do o <- set_cols n' off out src; set_col o (off + n') src n' end.

Definition deref {A} (o : option A) : res A := match o with Some a => Ok a | None => UB end.

(** apop_linear_algebra.m4.c:242-296 apop_matrix_stack; [rows]: posn=='r'. *)
Definition matrix_stack (m1 m2 : option gmat) (rows inplace : bool) : res (option gmat) :=
  match m1, m2 with
  | None, Some w => do o <- set_rows (size1 w) 0 (matrix_alloc (size1 w) (size2 w)) w; Ok (Some o)
  | Some v, None =>
      if inplace then Ok (Some v)
      else do o <- set_rows (size1 v) 0 (matrix_alloc (size1 v) (size2 v)) v; Ok (Some o)
  | None, None => Ok None
  | Some v, Some w =>
    if rows then
      if negb (size2 v =? size2 w) then Ok None
      else
        do out <- (if inplace then do o <- matrix_realloc (Some v) (size1 v + size1 w) (size2 v); deref o
                   else set_rows (size1 v) 0 (matrix_alloc (size1 v + size1 w) (size2 v)) v);
        do o <- set_rows (size1 w) (size1 v) out w; Ok (Some o)
    else
      if negb (size1 v =? size1 w) then Ok None
      else
        do out <- (if inplace then do o <- matrix_realloc (Some v) (size1 v) (size2 v + size2 w); deref o
                   else set_cols (size2 v) 0 (matrix_alloc (size1 v) (size2 v + size2 w)) v);
        do o <- set_cols (size2 w) (size2 v) out w; Ok (Some o)
  end.
End Mem.
Arguments gmat : clear implicits.
Arguments gvec : clear implicits.
