(** Model of the map/apply family, apop_mapply.m4.c:117-515, including the OpenMP loops.
    A chain of pages is the list of its pages (a self-linked page is not modelled). *)
From Verif Require Import DataModel.
Local Open Scope string_scope.
Local Open Scope list_scope.
Local Open Scope nat_scope.

(** -------- OMP_for (apop_internal.h:58-66) --------
    One iteration i of rowloop/forloop/vectorloop (apop_mapply.m4.c:214-285) is two steps: read and compute
    (here: a function [F] of i and of the present content of output cell i, the only shared cell it may see),
    then store into output cell i.  Iterations are interleaved by an arbitrary schedule, a list saying which
    iteration moves next; a finished or non-existent iteration does nothing. *)
Inductive pc (A : Type) := Ready | Computed (y : A) | Done.
Arguments Ready {A}. Arguments Computed {A}. Arguments Done {A}.

Definition omp_step {A} (F : nat -> A -> A) (st : list A * list (pc A)) (i : nat) : list A * list (pc A) :=
  let '(v, ts) := st in
  match ts !! i with
  | Some Ready => match v !! i with Some x => (v, <[i := Computed (F i x)]> ts) | None => st end
  | Some (Computed y) => (<[i := y]> v, <[i := Done]> ts)
  | _ => st
  end.
Definition is_done {A} (t : pc A) : bool := match t with Done => true | _ => false end.
(** n iterations over the output vector v; storing beyond its end is GSL's range error (UB); a schedule that
    does not finish the loop gives Fuel *)
Definition omp_for {A} (F : nat -> A -> A) (n : nat) (v : list A) (sched : list nat) : res (list A) :=
  if length v <? n then UB
  else let '(v', ts) := List.fold_left (omp_step F) sched (v, replicate n Ready) in
       if forallb is_done ts then Ok v' else Fuel.

(** the schedule of each loop of the run: loop number, number of iterations -> schedule *)
Definition scheduler := nat -> nat -> list nat.
(** every iteration gets its two steps *)
Definition fair (s : scheduler) : Prop :=
  forall k n i, i < n -> 2 <= count_occ Nat.eq_dec (s k n) i.

Section MapM.
Context {E : Type}.
Variable g : E.                       (* content of freshly malloc'ed cells *)
Variable sch : scheduler.
Implicit Types p : page E.

(** the twelve function arguments of apop_map: on a scalar, a vector, or a one-row data set, each with the
    index (the variants without index or parameter are constant in it).  The function is assumed not to write
    through its argument. *)
Inductive fn := FD (f : E -> nat -> E) | FV (f : list E -> nat -> E) | FR (f : page E -> nat -> E).

(** apop_mapply.m4.c:266-277 vectorloop over [vin] into [vout] ([None]: NULL).  [alias]: vout is vin. *)
Definition vectorloop (k : nat) (alias : bool) (f : E -> nat -> E) (vin : list E) (vout : option (list E)) : res (option (list E)) :=
  match vout with
  | None => Ok None
  | Some w =>
    do w' <- omp_for (fun i x => if alias then f x i else match vin !! i with Some y => f y i | None => x end)
                     (length vin) w (sch k (length vin));
    Ok (Some w')
  end.

(** apop_mapply.m4.c:239-253 forloop, rc = 'r': over the rows of the matrix, else over its columns *)
Definition mcol (m : grid E) (j : nat) : list E := omap (fun r => r !! j) (ga m).
Definition line (byrow : bool) (m : grid E) (i : nat) : list E :=
  if byrow then match ga m !! i with Some r => r | None => [] end else mcol m i.
Definition forloop (byrow : bool) (f : list E -> nat -> E) (m : grid E) (vout : option (list E)) : res (option (list E)) :=
  let n := if byrow then gr m else gc m in
  match vout with
  | None => Ok None
  | Some w => do w' <- omp_for (fun i _ => f (line byrow m i) i) n w (sch 0 n); Ok (Some w')
  end.

(** apop_mapply.m4.c:224-237 rowloop; [alias]: the output vector is the data set's own vector, so the one-row
    view of row i shows its present cell i *)
Definition rowloop (alias : bool) (f : page E -> nat -> E) p (vout : option (list E)) : res (option (list E)) :=
  match vout with
  | None => Ok None
  | Some w =>
    do w' <- omp_for (fun i x => f (row_view (if alias then set_vec p (option_map (fun v => <[i := x]> v) (vect p)) else p) i) i)
                     (maxsize p) w (sch 0 (maxsize p));
    Ok (Some w')
  end.

(** apop_mapply.m4.c:181-200: scalar function on a matrix, line by line along the smaller dimension;
    [alias]: out is in.  [n] lines left, from line i. *)
Definition setline (byrow : bool) (m : grid E) (i : nat) (l : list E) : grid E :=
  Gr (gr m) (gc m) (if byrow then <[i := l]> (ga m) else zip_with (fun r x => <[i := x]> r) (ga m) l).
Fixpoint matloop (byrow alias : bool) (f : E -> nat -> E) (n i : nat) (min mout : grid E) : res (grid E) :=
  match n with
  | 0 => Ok mout
  | S n' =>
    do l <- vectorloop (S i) alias f (line byrow (if alias then mout else min) i) (Some (line byrow mout i));
    match l with
    | Some l => matloop byrow alias f n' (S i) min (setline byrow mout i l)
    | None => UB
    end
  end.

Definition is_some {A} (o : option A) : bool := match o with Some _ => true | None => false end.
Definition is_part (c part : ascii) : bool := Ascii.eqb c part.

(** apop_mapply.m4.c:149-156: the output data set for inplace='n' *)
Definition map_alloc (fn : fn) (part : ascii) p : option (page E) :=
  let alloc a b c := Some (data_alloc_filled g a b c) in
  if match fn with FR _ => true | _ => false end then alloc (maxsize p) 0 0%Z
  else if is_part "v" part || (is_some (vect p) && negb (is_some (mat p))) then alloc (vsz p) 0 0%Z
  else if is_part "m" part then alloc (msz1 p) (msz2 p) 0%Z
  else if is_part "a" part then alloc (vsz p) (msz1 p) (Z.of_nat (msz2 p))
  else if is_part "r" part then alloc (maxsize p) 0 0%Z
  else if is_part "c" part then alloc (msz2 p) 0 0%Z
  else None.

(** apop_mapply.m4.c:160-176: names of the output for inplace='n' *)
Definition map_names (fn : fn) (part : ascii) p (out : page E) : page E :=
  let byrows := match fn with FR _ => true | _ => false end in
  set_nms out
   (if is_part "v" part || (is_some (vect p) && negb (is_some (mat p))) then
      name_stack (name_stack (nms out) (nms p) "v" "v") (nms p) "r" "r"
    else if is_part "m" part then name_stack (name_stack (nms out) (nms p) "r" "r") (nms p) "c" "c"
    else if negb byrows && is_part "a" part then name_copy (nms p)
    else if byrows || is_part "r" part then name_stack (nms out) (nms p) "r" "r"
    else nms out).   (* 'c', 174-175: the stack goes the other way, from the new empty names to the input's *)

(** what apop_map returned and what became of its input page; [None] = NULL.  When inplace='y' the returned
    page is the input page. *)
Definition out_set (o : option (page E)) (v : option (list E)) := option_map (fun q => set_vec q v) o.

(** apop_mapply.m4.c:139-206: one page.  Result: (returned page, input page afterwards, whether the end of the
    function was reached); for inplace='y' both pages are the same object (except in the early return). *)
Definition map_page (fn : fn) (part inplace : ascii) p : res (option (page E) * page E * bool) :=
  let y := is_part "y" inplace in
  let rc := is_part "r" part || is_part "c" part in
  match fn, rc with
  | FD _, true => Ok (Some (set_err blank (Some "E"%char)), p, false)      (* 144-147, apop.m4.h:634 *)
  | _, _ =>
    (* 157-159 *)
    let p1 := if y && rc && negb (is_some (vect p)) then set_vec p (Some (replicate (maxsize p) g)) else p in
    let out := if y then Some p1 else if is_part "v" inplace then None
               else option_map (map_names fn part p) (map_alloc fn part p) in
    let ovec := match out with Some q => vect q | None => None end in
    do out' <-
      match fn with
      | FR f => do v <- rowloop y f p1 ovec; Ok (out_set out v, true)
      | FV f =>
          if (is_some (vect p1) && (is_part "v" part || is_part "a" part))
             || (is_some (mat p1) && (is_part "m" part || is_part "a" part)) then UB   (* double passed as vector *)
          else if rc then
            match mat p1 with
            | None => Ok (Some (set_err (match out with Some q => q | None => blank end) (Some "p"%char)), false)
            | Some m => do v <- forloop (is_part "r" part) f m ovec; Ok (out_set out v, true)
            end
          else Ok (out, true)
      | FD f =>
          do out <-
            match vect p1, is_part "v" part || is_part "a" part with
            | Some vin, true => do v <- vectorloop 0 y f vin ovec; Ok (out_set out v)
            | _, _ => Ok out
            end;
          match mat p1, is_part "m" part || is_part "a" part with
          | Some m, true =>
              let byrow := gr m <=? gc m in
              if is_part "v" inplace then Ok (out, true)
              else match out with
                   | None => UB
                   | Some q => match mat q with
                               | None => UB
                               | Some mo => do m' <- matloop byrow y f (Nat.min (gr m) (gc m)) 0 m mo;
                                            Ok (Some (set_mat q (Some m')), true)
                               end
                   end
          | _, _ => Ok (out, true)
          end
      end;
    let '(q, go) := out' in
    Ok (q, match q with Some q => if y then q else p1 | None => p1 end, go)
  end.

(** apop_mapply.m4.c:139-211 apop_map: (returned chain, input chain afterwards).  [None]: NULL returned. *)
Fixpoint map_chain (fn : fn) (part inplace : ascii) (all : bool) (d : list (page E)) : res (option (list (page E)) * list (page E)) :=
  match d with
  | [] => Ok (None, [])
  | p :: more =>
    do (r, go) <- map_page fn part inplace p;
    let '(out, p') := r in
    let y := is_part "y" inplace in
    let own := match out with Some q => Some (if y && (go || match fn with FD _ => false | _ => true end) then q :: more else [q]) | None => None end in
    if go && all && negb (match more with [] => true | _ => false end) then
      match out with
      | None => UB                                       (* 208: out->more, out NULL *)
      | Some q =>
        do (ro, more') <- map_chain fn part inplace all more;
        match ro with
        | None => UB                                     (* 209: out->more->error *)
        | Some [] => UB
        | Some (q2 :: qs) =>
          let q' := match err q2 with Some e => set_err q (Some e) | None => q end in
          Ok (Some (q' :: q2 :: qs), if y then q' :: more' else p' :: more')
        end
      end
    else Ok (own, p' :: more)
  end.

(** apop_vector_sum, apop_stats.m4.c:15-22, and apop_matrix_sum 310-317, for any addition *)
Variables (zero : E) (add : E -> E -> E).
Definition vsum (v : list E) : E := List.fold_left add v zero.
Definition msum (m : grid E) : E := List.fold_left add (List.concat (ga m)) zero.

(** apop_mapply.m4.c:479-515 apop_map_sum ([mapped] is dereferenced: UB when NULL) *)
Fixpoint map_sum (fn : fn) (part : ascii) (all : bool) (d : list (page E)) : res E :=
  match d with
  | [] => Ok zero
  | p :: more =>
    do (r, _) <- map_chain fn part "n" false [p];
    match r with
    | Some (q :: _) =>
      let s := add (match vect q with Some v => vsum v | None => zero end)
                   (match mat q with Some m => msum m | None => zero end) in
      if all && negb (match more with [] => true | _ => false end)
      then do t <- map_sum fn part all more; Ok (add s t)
      else Ok (add s zero)
    | _ => UB
    end
  end.

(** apop_mapply.m4.c:365-369 apop_vector_map, 327-331 apop_matrix_map, 399-407 apop_matrix_map_all (its nested
    loops are flattened: any interleaving of all cells), 380-382 apop_vector_apply (the callback rewrites its
    cell), 343-346 apop_matrix_apply (rewrites its row), 418-423 apop_matrix_apply_all; NULL gives NULL. *)
Definition vector_map (f : E -> E) (v : option (list E)) : res (option (list E)) :=
  match v with None => Ok None
  | Some v => vectorloop 0 false (fun x _ => f x) v (Some (replicate (length v) g)) end.
Definition matrix_map (f : list E -> E) (m : option (grid E)) : res (option (list E)) :=
  match m with None => Ok None
  | Some m => forloop true (fun r _ => f r) m (Some (replicate (gr m) g)) end.
Fixpoint chunks (c : nat) (r : nat) (l : list E) : list (list E) :=
  match r with 0 => [] | S r' => take c l :: chunks c r' (drop c l) end.
Definition matrix_map_all (f : E -> E) (m : option (grid E)) : res (option (grid E)) :=
  match m with None => Ok None
  | Some m =>
    let cells := List.concat (ga m) in
    do w <- omp_for (fun i x => match cells !! i with Some y => f y | None => x end)
                    (gr m * gc m) (replicate (gr m * gc m) g) (sch 0 (gr m * gc m));
    Ok (Some (Gr (gr m) (gc m) (chunks (gc m) (gr m) w)))
  end.
Definition vector_apply (f : E -> E) (v : option (list E)) : res (option (list E)) :=
  match v with None => Ok None
  | Some v => do w <- omp_for (fun _ x => f x) (length v) v (sch 0 (length v)); Ok (Some w) end.
Definition matrix_apply (f : list E -> list E) (m : option (grid E)) : res (option (grid E)) :=
  match m with None => Ok None
  | Some m => do w <- omp_for (fun _ r => f r) (gr m) (ga m) (sch 0 (gr m)); Ok (Some (Gr (gr m) (gc m) w)) end.
Definition matrix_apply_all (f : E -> E) (m : option (grid E)) : res (option (grid E)) :=
  match m with None => Ok None
  | Some m =>
    do w <- omp_for (fun _ x => f x) (gr m * gc m) (List.concat (ga m)) (sch 0 (gr m * gc m));
    Ok (Some (Gr (gr m) (gc m) (chunks (gc m) (gr m) w))) end.
Definition vector_map_sum (f : E -> E) (v : option (list E)) : res E :=                (* 435-441 *)
  do r <- vector_map f v; Ok (match r with None => zero | Some w => vsum w end).
Definition matrix_map_sum (f : list E -> E) (m : option (grid E)) : res E :=            (* 463-469 *)
  do r <- matrix_map f m; Ok (match r with None => zero | Some w => vsum w end).
Definition matrix_map_all_sum (f : E -> E) (m : option (grid E)) : res E :=             (* 449-455 *)
  do r <- matrix_map_all f m; Ok (match r with None => zero | Some w => msum w end).
End MapM.
