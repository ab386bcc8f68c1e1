(** Value-level model of apop_data.m4.c: data sets as pages with optional parts. *)
From Verif Require Export NamesModel.

(** apop.m4.h apop_data struct.  [err]: the `error` char ([None] = 0).  [names] is always non-NULL (as set
    up by apop_data_alloc).  [txt = None]: text==NULL and textsize=(0,0).  gsl_vector = list, gsl_matrix =
    grid; the memory-level behaviour of resizing is in MemModel.v/TextModel.v. *)
Record page (E : Type) := Pg {
  vect : option (list E); mat : option (grid E); wts : option (list E);
  txt : option (grid string); nms : names; err : option ascii }.
Arguments Pg {E}. Arguments vect {E}. Arguments mat {E}. Arguments wts {E}.
Arguments txt {E}. Arguments nms {E}. Arguments err {E}.

(** A data set with its chain of `more` pages. [Loop p]: p->more == p. Longer cycles are not modelled. *)
Inductive adata (E : Type) := Last (p : page E) | Loop (p : page E) | Cons (p : page E) (rest : adata E).
Arguments Last {E}. Arguments Loop {E}. Arguments Cons {E}.

Fixpoint pages {E} (d : adata E) : list (page E) :=
  match d with Last p => [p] | Loop p => [p] | Cons p r => p :: pages r end.
Fixpoint acyclic {E} (d : adata E) : bool :=
  match d with Last _ => true | Loop _ => false | Cons _ r => acyclic r end.
Definition head {E} (d : adata E) : page E := match d with Last p => p | Loop p => p | Cons p _ => p end.
Definition set_head {E} (d : adata E) (q : page E) : adata E :=
  match d with Last _ => Last q | Loop _ => Loop q | Cons _ r => Cons q r end.

Section DataM.
Context {E : Type}.
Variable g : E.   (* arbitrary: the content of freshly malloc'ed cells *)
Implicit Types p q : page E.

Definition set_vec p v := Pg v (mat p) (wts p) (txt p) (nms p) (err p).
Definition set_mat p m := Pg (vect p) m (wts p) (txt p) (nms p) (err p).
Definition set_wts p w := Pg (vect p) (mat p) w (txt p) (nms p) (err p).
Definition set_txt p t := Pg (vect p) (mat p) (wts p) t (nms p) (err p).
Definition set_nms p n := Pg (vect p) (mat p) (wts p) (txt p) n (err p).
Definition set_err p e := Pg (vect p) (mat p) (wts p) (txt p) (nms p) e.

(** apop_data.m4.c:51,64: the struct as returned by apop_data_alloc() with no arguments *)
Definition blank : page E := Pg None None None None name_alloc None.

(** apop_data.m4.c:32-68, the shape decision of apop_data_alloc (apop_data_calloc 77-107 is the same):
    (vector size, matrix size1, matrix size2); a part is allocated iff its size(s) are positive. *)
Definition alloc_shape (size1 size2 : nat) (size3 : Z) : nat * nat * Z :=
  if (size3 =? 0)%Z then
    if size2 =? 0 then (size1, 0, 0%Z) else (0, size1, Z.of_nat size2)
  else (size1, size2, size3).
Definition new_grid (r c : nat) (x : E) : grid E := Gr r c (replicate r (replicate c x)).
Definition data_alloc_filled (x : E) (size1 size2 : nat) (size3 : Z) : page E :=
  let '(vs, m1, m2) := alloc_shape size1 size2 size3 in
  Pg (if vs =? 0 then None else Some (replicate vs x))
     (if (0 <? m2)%Z && (0 <? m1) then Some (new_grid m1 (Z.to_nat m2) x) else None)
     None None name_alloc None.

(** Get_vmsizes, apop_internal.h:8-16 *)
Definition vsz p : nat := match vect p with Some v => length v | None => 0 end.
Definition wsz p : nat := match wts p with Some v => length v | None => 0 end.
Definition msz1 p : nat := match mat p with Some m => gr m | None => 0 end.
Definition msz2 p : nat := match mat p with Some m => gc m | None => 0 end.
Definition tsz1 p : nat := match txt p with Some t => gr t | None => 0 end.
Definition tsz2 p : nat := match txt p with Some t => gc t | None => 0 end.
Definition maxsize p : nat := Nat.max (vsz p) (Nat.max (msz1 p) (tsz1 p)).

(** -------- memcpy and copy -------- *)

(** One of the loops apop_data.m4.c:236-244: overwrite existing names (hash untouched), add the others. *)
Fixpoint overlay (i : nat) (src : list string) (lh : list string * harray) : list string * harray :=
  match src with
  | [] => lh
  | s :: src' =>
    let '(l, h) := lh in
    overlay (S i) src' (if i <? length l then (<[i := s]> l, h) else add_to l h s)
  end.
(** apop_data.m4.c:232-245 *)
Definition names_memcpy (o n : names) : names :=
  let '(r, rh) := overlay 0 (rown n) (rown o, rowh o) in
  let '(c, ch) := overlay 0 (coln n) (coln o, colh o) in
  let '(t, th) := overlay 0 (txtn n) (txtn o, txth o) in
  Nm (Some (pct_s (title n)))
     (match vecn o, vecn n with Some _, Some v => Some v | ov, _ => ov end)
     r c t rh ch th.

(** apop_data.m4.c:246-260.  textsize of the destination is overwritten (246-247) before the check at 249,
    so the check never fires; writing a cell outside the destination's grid is UB. *)
Definition text_memcpy (o i : option (grid string)) : res (option (grid string)) :=
  match i with
  | None => Ok (match o with None => None | Some _ => Some (Gr 0 0 []) end)
  | Some gi =>
    if (gr gi =? 0) || (gc gi =? 0) then Ok (match o with None => None | Some _ => Some (Gr 0 0 []) end)
    else match o with
         | None => UB
         | Some go => if (gr gi <=? gr go) && (gc gi <=? gc go) then Ok (Some gi) else UB
         end
  end.

(** apop_data.m4.c:207-260: one page.  The bool says whether the function went on to line 261 (true) or
    returned early with an error flag. *)
Definition memcpy_page (out inp : page E) : res (page E * bool) :=
  let vec_part out :=
    match vect inp with
    | None => inl out
    | Some v => match vect out with
                | None => inr (set_err out (Some "p"%char))
                | Some w => if length v =? length w then inl (set_vec out (Some v)) else inr (set_err out (Some "d"%char))
                end
    end in
  let wts_part out :=
    match wts inp with
    | None => inl out
    | Some v => match wts out with
                | None => inr (set_err out (Some "p"%char))
                | Some w => if length v =? length w then inl (set_wts out (Some v)) else inr (set_err out (Some "d"%char))
                end
    end in
  let mat_part out :=
    match mat inp with
    | None => inl out
    | Some m => match mat out with
                | None => inr (set_err out (Some "p"%char))
                | Some w => if (gr m =? gr w) && (gc m =? gc w) then inl (set_mat out (Some m))
                            else inr (set_err out (Some "d"%char))
                end
    end in
  match mat_part out with
  | inr e => Ok (e, false)
  | inl out =>
    match vec_part out with
    | inr e => Ok (e, false)
    | inl out =>
      match wts_part out with
      | inr e => Ok (e, false)
      | inl out =>
        let out := set_nms out (names_memcpy (nms out) (nms inp)) in
        do t <- text_memcpy (txt out) (txt inp);
        Ok (set_txt out t, true)
      end
    end
  end.

(** apop_data.m4.c:203-262 apop_data_memcpy, out and in distinct and non-NULL.  A self-linked input page
    (Loop) is not modelled here (apop_data_copy intercepts it): UB. *)
Fixpoint memcpy (out inp : adata E) {struct inp} : res (adata E) :=
  do (q, go) <- memcpy_page (head out) (head inp);
  let out' := set_head out q in
  if go then
    match inp, out' with
    | Cons _ ri, Cons _ ro => do ro' <- memcpy ro ri; Ok (Cons q ro')
    | Loop _, Cons _ _ => UB
    | Loop _, Loop _ => UB
    | Cons _ _, Loop _ => UB
    | _, _ => Ok out'
    end
  else Ok out'.

(** apop_data.m4.c:299-315: allocation of the parts of the copy, from page [p] *)
Definition copy_alloc p : page E :=
  Pg (option_map (fun v => replicate (length v) g) (vect p))
     (option_map (fun m => new_grid (gr m) (gc m) g) (mat p))
     (option_map (fun v => replicate (length v) g) (wts p))
     (match txt p with
      | Some t => if (gr t =? 0) || (gc t =? 0) then None
                  else Some (Gr (gr t) (gc t) (replicate (gr t) (replicate (gc t) EmptyString)))
      | None => None
      end)
     name_alloc (err p).
Definition has_text p : bool := negb ((tsz1 p =? 0) || (tsz2 p =? 0)).

(** apop_data.m4.c:283-318 apop_data_copy.  Line 314 returns early when out->error is set, which is also
    the case when the input carried an error flag (287-290) and has text. *)
Fixpoint data_copy (inp : adata E) : res (adata E) :=
  match inp with
  | Loop p => Ok (Last (set_err blank (Some "c"%char)))
  | Last p =>
      if has_text p && (match err p with Some _ => true | None => false end) then Ok (Last (copy_alloc p))
      else memcpy (Last (copy_alloc p)) inp
  | Cons p rest =>
      do r <- data_copy rest;
      match err (head r) with
      | Some e => Ok (Cons (set_err blank (Some e)) r)
      | None =>
        if has_text p && (match err p with Some _ => true | None => false end) then Ok (Cons (copy_alloc p) r)
        else memcpy (Cons (copy_alloc p) r) inp
      end
  end.

(** -------- stacking -------- *)

(** value level of apop_vector_stack / apop_matrix_stack (see MemModel.v and the refinement lemmas) *)
Definition vstack (a b : option (list E)) : option (list E) :=
  match a, b with None, _ => b | _, None => a | Some v, Some w => Some (v ++ w) end.
Definition mstack (rows : bool) (a b : option (grid E)) : option (grid E) :=
  match a, b with
  | None, _ => b
  | _, None => a
  | Some v, Some w =>
    if rows then if gc v =? gc w then Some (Gr (gr v + gr w) (gc v) (ga v ++ ga w)) else None
    else if gr v =? gr w then Some (Gr (gr v) (gc v + gc w) (zip_with (++) (ga v) (ga w))) else None
  end.
Definition column (v : list E) : grid E := Gr (length v) 1 (map (fun x => [x]) v).

(** value level of apop_text_alloc (TextModel.v): UB when rows grow while columns shrink *)
Definition text_resize (t : option (grid string)) (row col : nat) : res (option (grid string)) :=
  if ((row =? 0) && negb (col =? 0)) || ((col =? 0) && negb (row =? 0)) then Ok t
  else if row =? 0 then Ok None
  else match t with
       | None => Ok (Some (Gr row col (replicate row (replicate col EmptyString))))
       | Some o =>
         if (gr o <? row) && (col <? gc o) then UB
         else Ok (Some (Gr row col
            (map (fun r => take col (r ++ replicate (col - length r) EmptyString)) (take row (ga o))
             ++ replicate (row - gr o) (replicate col EmptyString))))
       end.

(** writing all of [src] into [dst] with its corner at (r0, c0) (the loops 406-410, 419-423) *)
Definition paste_row (c0 : nat) (src dst : list string) : list string :=
  take c0 dst ++ src ++ drop (c0 + length src) dst.
Definition paste (r0 c0 : nat) (src : grid string) (dst : grid string) : grid string :=
  Gr (gr dst) (gc dst)
     (take r0 (ga dst) ++ zip_with (paste_row c0) (ga src) (drop r0 (ga dst))
      ++ drop (r0 + length (ga src)) (ga dst)).

Definition pad_names (n : names) (k : nat) (t : ascii) : names := add_all n (replicate k EmptyString) t.

(** apop_data.m4.c:373-434: the stacking itself.  [m1n]: the names of m1 as seen at line 428 (in place they
    are the names of the output). *)
Definition stack_body (rows inplace : bool) (m1 out m2 : page E) : res (page E) :=
  let out :=
    if rows then out
    else
      let out :=
        match vect m2, vect out with
        | Some v, Some _ =>
          let o := set_mat out (mstack false (mat out) (Some (column v))) in
          let n := name_stack (nms o) (nms m2) "c" "v" in
          let n := match vecn (nms m2) with
                   | None => if negb (length (coln (nms m2)) =? 0) then add1 n "v" "c" else n
                   | Some _ => n end in
          set_nms o n
        | _, _ => out
        end in
      match vect m2, vect out with
      | Some v, None =>
          let o := set_vec out (Some v) in
          match vecn (nms m2) with Some s => set_nms o (add1 (nms o) s "v") | None => o end
      | _, _ => out
      end in
  let out := set_mat out (mstack rows (mat out) (mat m2)) in
  let out := if rows then set_wts (set_vec out (vstack (vect out) (vect m2))) (vstack (wts out) (wts m2)) else out in
  let name_part out :=
    let m1n := if inplace then nms out else nms m1 in
    if (if rows then negb (length (rown (nms m2)) =? 0) else negb (length (coln (nms m2)) =? 0)) then
      let mn := if rows then length (rown m1n) else length (coln m1n) in
      let mx := if rows then Nat.max (vsz m1) (msz1 m1) else msz2 m1 in
      let t := if rows then "r"%char else "c"%char in
      set_nms out (name_stack (pad_names (nms out) (mx - mn) t) (nms m2) t t)
    else out in
  match txt m2 with
  | None => Ok (name_part out)
  | Some t2 =>
    let mismatch := match txt out with
                    | Some to => if rows then negb (gc t2 =? gc to) else negb (gr t2 =? gr to)
                    | None => false end in
    if mismatch then Ok (set_err out (Some "d"%char))
    else
      let r0 := if rows then tsz1 out else 0 in
      let c0 := if rows then 0 else tsz2 out in
      do t <- text_resize (txt out) (if rows then tsz1 out + gr t2 else gr t2) (if rows then gc t2 else tsz2 out + gc t2);
      let out := set_txt out t in
      match err out with
      | Some e => Ok (if rows then out else set_err out (Some "a"%char))
      | None =>
        let out := set_txt out (option_map (paste r0 c0 t2) t) in
        let out := if rows then out else set_nms out (name_stack (nms out) (nms m2) "t" "t") in
        Ok (name_part out)
      end
  end.

(** apop_data.m4.c:352-435 apop_data_stack; result: the returned data set.  (Line 370 returns with
    m1->more still NULL: a damaged m1 in the error case is not modelled.) *)
Definition data_stack (m1 m2 : option (adata E)) (posn : ascii) (inplace : bool) : res (option (adata E)) :=
  if negb ((posn =? "r")%char || (posn =? "c")%char) then Ok None
  else match m1, m2 with
  | None, None => Ok None
  | None, Some d2 => do c <- data_copy d2; Ok (Some c)
  | Some d1, None => if inplace then Ok (Some d1) else do c <- data_copy d1; Ok (Some c)
  | Some d1, Some d2 =>
      if inplace then
        do o <- stack_body (posn =? "r")%char true (head d1) (head d1) (head d2);
        Ok (Some (set_head d1 o))
      else
        do c <- data_copy (Last (head d1));
        match err (head c) with
        | Some _ => Ok (Some c)
        | None => do o <- stack_body (posn =? "r")%char false (head d1) (head c) (head d2); Ok (Some (set_head c o))
        end
  end.

(** -------- splitting -------- *)

(** gsl_vector_subvector(v, off, n) then copy: a length of 0 or a range outside v calls the GSL error
    handler, which aborts by default: UB. *)
Definition subvec (v : list E) (off n : nat) : res (list E) :=
  if (0 <? n) && (off + n <=? length v) then Ok (take n (drop off v)) else UB.
Definition opt_subvec (v : option (list E)) (off n : nat) : res (option (list E)) :=
  match v with None => Ok None | Some v => do s <- subvec v off n; Ok (Some s) end.
Definition submat (m : grid E) (r0 c0 nr nc : nat) : res (grid E) :=
  if (0 <? nr) && (0 <? nc) && (r0 + nr <=? gr m) && (c0 + nc <=? gc m) then
    Ok (Gr nr nc (map (fun r => take nc (drop c0 r)) (take nr (drop r0 (ga m)))))
  else UB.

Definition stack_if (b : bool) (o n : names) (t : ascii) : names := if b then name_stack o n t t else o.

(** apop_data.m4.c:602-617: text in a row split; [sp] = splitpoint > 0 *)
Definition split_text (t : option (grid string)) (sp : nat) : res (option (grid string) * option (grid string)) :=
  match t with
  | None => Ok (None, None)
  | Some t =>
    if (gr t =? 0) || (gc t =? 0) then Ok (None, None)
    else
      let top := take sp (ga t) ++ replicate (sp - gr t) (replicate (gc t) EmptyString) in
      let bot := drop sp (ga t) in
      Ok (Some (Gr sp (gc t) top), if sp <? gr t then Some (Gr (gr t - sp) (gc t) bot) else None)
  end.

Definition split_rows (d : adata E) (splitpoint : Z) (lowercase : bool) : res (option (adata E) * option (adata E)) :=
  let p := head d in
  if (splitpoint <=? 0)%Z then do c <- data_copy d; Ok (None, Some c)                       (* 474-475 *)
  else
    let sp := Z.to_nat splitpoint in
    if match mat p with Some m => gr m <=? sp | None => false end then do c <- data_copy d; Ok (Some c, None)  (* 476-477 *)
    else
      do v1 <- opt_subvec (vect p) 0 sp;
      do v2 <- opt_subvec (vect p) sp (vsz p - sp);
      do w1 <- opt_subvec (wts p) 0 sp;
      do w2 <- opt_subvec (wts p) sp (wsz p - sp);
      do m1 <- match mat p with None => Ok None | Some m => do s <- submat m 0 0 sp (gc m); Ok (Some s) end;
      do m2 <- match mat p with None => Ok None | Some m => do s <- submat m sp 0 (gr m - sp) (gc m); Ok (Some s) end;
      let n := nms p in
      let base o := name_stack o n "v" "v" in
      let n1 := add_all (base name_alloc) (take sp (rown n)) "r" in                          (* 581-586 *)
      let n2 := add_all (base name_alloc) (drop sp (rown n)) "r" in
      let n1 := name_stack n1 n "c" "c" in
      let n2 := name_stack n2 n "c" "c" in
      let hastext := lowercase && has_text p in
      let n2 := stack_if hastext n2 n "t" in                                                  (* 603 *)
      let n1 := stack_if (hastext && (sp <? tsz1 p)) n1 n "t" in                              (* 606-607 *)
      do (t1, t2) <- (if hastext then split_text (txt p) sp else Ok (None, None));
      Ok (Some (Last (Pg v1 m1 w1 t1 n1 None)), Some (Last (Pg v2 m2 w2 t2 n2 None))).

Definition split_cols (d : adata E) (splitpoint : Z) : res (option (adata E) * option (adata E)) :=
  let p := head d in
  do _ <- opt_subvec (wts p) 0 (wsz p);                                                       (* 507-509 *)
  if (splitpoint <=? -1)%Z then do c <- data_copy d; Ok (None, Some c)
  else
    let sp := Z.to_nat splitpoint in
    if match mat p with Some m => gc m <=? sp | None => false end then do c <- data_copy d; Ok (Some c, None)
    else
      let n := nms p in
      let hasv := match vect p with Some _ => true | None => false end in
      let hasm := match mat p with Some _ => true | None => false end in
      do v1 <- opt_subvec (vect p) 0 (vsz p);
      let n1 := stack_if hasv name_alloc n "v" in
      let n1 := name_stack n1 n "r" "r" in
      let n2 := name_stack name_alloc n "r" "r" in
      match mat p with
      | None =>                                               (* 520-534 (splitpoint 0) and 551-566 *)
          Ok (Some (Last (Pg v1 None (wts p) None n1 None)), Some (Last (Pg None None (wts p) None n2 None)))
      | Some m =>
          if sp =? 0 then                                      (* 520-534 *)
            do s2 <- submat m 0 0 (gr m) (gc m);
            Ok (Some (Last (Pg v1 None (wts p) None n1 None)),
                Some (Last (Pg None (Some s2) (wts p) None (name_stack n2 n "c" "c") None)))
          else                                                 (* 535-550 *)
            do s1 <- submat m 0 0 (gr m) sp;
            do s2 <- submat m 0 sp (gr m) (gc m - sp);
            Ok (Some (Last (Pg v1 (Some s1) (wts p) None (add_all n1 (take sp (coln n)) "c") None)),
                Some (Last (Pg None (Some s2) (wts p) None (add_all n2 (drop sp (coln n)) "c") None)))
      end.

(** apop_data.m4.c:459-619 apop_data_split *)
Definition data_split (d : adata E) (splitpoint : Z) (r_or_c : ascii) : res (option (adata E) * option (adata E)) :=
  if is_r r_or_c then split_rows d splitpoint (r_or_c =? "r")%char
  else if is_c r_or_c then split_cols d splitpoint
  else Ok (None, None).

(** -------- removing rows and columns -------- *)

(** Effect on one part of apop_data_memcpy(Apop_r(in,dst), Apop_r(in,src)), dst < src
    (apop.m4.h:847-882, apop_data.m4.c:203-262): if the source row exists it overwrites row dst. *)
Definition move {A} (l : list A) (dst src : nat) : list A :=
  match l !! src with Some x => <[dst := x]> l | None => l end.
Definition move_grid {A} (m : grid A) (dst src : nat) : grid A := Gr (gr m) (gc m) (move (ga m) dst src).
(** row names: the one-row view has a name iff rowct > src; the name is overwritten, its hash is not *)
Definition move_names (n : names) (dst src : nat) : names :=
  Nm (title n) (vecn n) (move (rown n) dst src) (coln n) (txtn n) (rowh n) (colh n) (txth n).
Definition move_row p (dst src : nat) : page E :=
  Pg (option_map (fun v => move v dst src) (vect p)) (option_map (fun m => move_grid m dst src) (mat p))
     (option_map (fun v => move v dst src) (wts p)) (option_map (fun m => move_grid m dst src) (txt p))
     (move_names (nms p) dst src) (err p).

(** what the do_drop callback sees: the one-row view Apop_r(in, i) *)
Definition row_view p (i : nat) : page E :=
  Pg (match vect p with Some v => option_map (fun x => [x]) (v !! i) | None => None end)
     (match mat p with Some m => option_map (fun r => Gr 1 (gc m) [r]) (ga m !! i) | None => None end)
     (match wts p with Some v => option_map (fun x => [x]) (v !! i) | None => None end)
     (match txt p with Some t => option_map (fun r => Gr 1 (gc t) [r]) (ga t !! i) | None => None end)
     (Nm (title (nms p)) (vecn (nms p)) (match rown (nms p) !! i with Some s => [s] | None => [] end)
         (coln (nms p)) (txtn (nms p)) (match rowh (nms p) !! i with Some h => [h] | None => [] end)
         (colh (nms p)) (txth (nms p)))
     None.

(** apop_data.m4.c:1426-1436: the compaction loop, k rows left from row i; returns page and outlength *)
Fixpoint rm_loop (dropf : page E -> nat -> bool) (k i outlength : nat) p : page E * nat :=
  match k with
  | 0 => (p, outlength)
  | S k' =>
    if dropf p i then rm_loop dropf k' (S i) outlength p
    else rm_loop dropf k' (S i) (S outlength) (if outlength =? i then p else move_row p outlength i)
  end.

(** apop_data.m4.c:1437-1455 *)
Definition trim p (n : nat) : page E :=
  let p := if n =? 0 then Pg None None None None (nms p) (err p) else p in
  let cut {A} (l : list A) := take (Nat.min (length l) n) l in
  let cutg {A} (m : grid A) := Gr (Nat.min (gr m) n) (gc m) (take (Nat.min (gr m) n) (ga m)) in
  let nn := nms p in
  Pg (option_map cut (vect p)) (option_map cutg (mat p)) (option_map cut (wts p)) (option_map cutg (txt p))
     (Nm (title nn) (vecn nn) (take n (rown nn)) (coln nn) (txtn nn) (rowh nn) (colh nn) (txth nn))
     (err p).

(** 1427-1431: the row is dropped when the list says so, else when the callback says so.  [drop=None]: NULL
    list; a list shorter than maxsize is read out of bounds (excluded by the theorems' hypotheses; here
    treated as "keep"). *)
Definition drop_dec (drop : option (list bool)) (do_drop : option (page E -> bool)) p (i : nat) : bool :=
  (match drop with Some l => match l !! i with Some b => b | None => false end | None => false end)
  || (match do_drop with Some f => f (row_view p i) | None => false end).

(** apop_data.m4.c:1413-1456 apop_data_rm_rows *)
Definition rm_rows p (drop : option (list bool)) (do_drop : option (page E -> bool)) : page E :=
  match drop, do_drop with
  | None, None => p
  | _, _ => let '(q, n) := rm_loop (drop_dec drop do_drop) (maxsize p) 0 0 p in trim q n
  end.

(** apop_data.m4.c:645-662 apop_matrix_rm_columns: columns with drop[i]==0 *)
Definition keep_cols (dropl : list bool) (m : grid E) : option (grid E) :=
  let ks := map negb (take (gc m) dropl) in
  let ct := length (keep_by ks (seq 0 (gc m))) in
  if ct =? gc m then Some m
  else if ct =? 0 then None
  else Some (Gr (gr m) ct (map (keep_by ks) (ga m))).

(** apop_data.m4.c:627-642 apop_name_rm_columns: names filtered; colhash keeps its old content *)
Definition names_rm_cols (n : names) (dropl : list bool) : names :=
  Nm (title n) (vecn n) (rown n) (keep_by (map negb dropl) (coln n)) (txtn n) (rowh n) (colh n) (txth n).

(** apop_data.m4.c:677-682 apop_data_rm_columns: a NULL matrix is dereferenced; both loops read drop[i] *)
Definition rm_columns p (dropl : list bool) : res (page E) :=
  match mat p with
  | None => UB
  | Some m =>
    if (gc m <=? length dropl) && (length (coln (nms p)) <=? length dropl) then
      Ok (set_nms (set_mat p (keep_cols dropl m)) (names_rm_cols (nms p) dropl))
    else UB
  end.

(** apop_data.m4.c:735-744: decide the columns to remove; [used]: requests already taken *)
Fixpoint take_request (col : string) (reqs : list (string * bool)) : option (list (string * bool)) :=
  match reqs with
  | [] => None
  | (r, u) :: reqs' =>
    if negb u && ci_eq col r then Some ((r, true) :: reqs')
    else match take_request col reqs' with Some rs => Some ((r, u) :: rs) | None => None end
  end.
Fixpoint rm_list (cols : list string) (reqs : list (string * bool)) : list bool :=
  match cols with
  | [] => []
  | c :: cols' => match take_request c reqs with
                  | Some reqs' => false :: rm_list cols' reqs'
                  | None => true :: rm_list cols' reqs
                  end
  end.
(** apop_data.m4.c:719-749 apop_data_prune_columns_base *)
Definition prune_columns p (reqs : list string) : res (page E) :=
  match mat p with
  | None => Ok p
  | Some _ => rm_columns p (rm_list (coln (nms p)) (map (fun r => (r, false)) reqs))
  end.

(** -------- element access -------- *)

(** the vector/matrix decision: apop_data.m4.c:788, 836, 905 *)
Definition uses_vector p (col : Z) : bool :=
  (col =? -1)%Z || ((col =? 0)%Z && (match mat p with None => true | _ => false end)
                    && (match vect p with Some _ => true | _ => false end)).

(** A row/column designation: number or name. *)
Inductive idx := Num (z : Z) | Name (s : string).

(** apop_data.m4.c:779-786 / 827-834 / 895-902: [None] = name not found *)
Definition resolve (n : names) (i : idx) (t : ascii) : res (option Z) :=
  match i with
  | Num z => Ok (Some z)
  | Name s => do z <- name_find n s t; Ok (if (z =? -2)%Z then None else Some z)
  end.

(** apop_data.m4.c:836-842.  [GotNaN]: NaN returned.  [GotRange]: GSL's range check fails inside
    gsl_vector_get/gsl_matrix_get; no handler is installed here, so by default GSL aborts the program, and with
    its handler off it returns 0.  A size_t row is a nonnegative number, here any integer. *)
Inductive got := GotNaN | GotRange | Got (x : E).
Definition get_at p (row col : Z) : got :=
  if uses_vector p col then
    match vect p with
    | None => GotNaN
    | Some v => if (row <? 0)%Z then GotRange else match v !! Z.to_nat row with Some x => Got x | None => GotRange end
    end
  else match mat p with
    | None => GotNaN
    | Some m => if (row <? 0)%Z || (col <? 0)%Z then GotRange
                else match cell m (Z.to_nat row) (Z.to_nat col) with Some x => Got x | None => GotRange end
    end.
Definition data_get p (row col : idx) : res got :=
  do r <- resolve (nms p) row "r"; 
  match r with
  | None => Ok GotNaN
  | Some r => do c <- resolve (nms p) col "c";
              match c with None => Ok GotNaN | Some c => Ok (get_at p r c) end
  end.

Definition gset (m : grid E) (i j : nat) (x : E) : grid E :=
  Gr (gr m) (gc m) (alter (fun r => <[j := x]> r) i (ga m)).
(** apop_data.m4.c:904-913 apop_data_set.  [error_for_set] is never assigned while the handler installed by
    Set_gsl_handler is apop_gsl_error, so an out-of-range set (rejected by GSL) still returns 0. *)
Definition set_at p (row col : Z) (x : E) : page E * Z :=
  if uses_vector p col then
    match vect p with
    | None => (p, (-1)%Z)
    | Some v => if (0 <=? row)%Z && (row <? Z.of_nat (length v))%Z
                then (set_vec p (Some (<[Z.to_nat row := x]> v)), 0%Z) else (p, 0%Z)
    end
  else match mat p with
    | None => (p, (-1)%Z)
    | Some m => if (0 <=? row)%Z && (row <? Z.of_nat (gr m))%Z && (0 <=? col)%Z && (col <? Z.of_nat (gc m))%Z
                then (set_mat p (Some (gset m (Z.to_nat row) (Z.to_nat col) x)), 0%Z) else (p, 0%Z)
    end.
Definition data_set p (row col : idx) (x : E) : res (page E * Z) :=
  do r <- resolve (nms p) row "r";
  match r with
  | None => Ok (p, (-1)%Z)
  | Some r => do c <- resolve (nms p) col "c";
              match c with None => Ok (p, (-1)%Z) | Some c => Ok (set_at p r c x) end
  end.

(** apop_data.m4.c:944-952 apop_data_add_named_elmt *)
Definition vec_realloc (v : list E) (n : nat) : list E := take n v ++ replicate (n - length v) g.
Definition add_named_elmt p (name : string) (x : E) : page E :=
  let n := add1 (nms p) name "r" in
  let ct := length (rown n) in
  let v := match vect p with None => [g] | Some v => v end in
  let v := if length v <? ct then vec_realloc v ct else v in
  set_nms (set_vec p (Some (<[ct - 1 := x]> v))) n.

(** -------- pages -------- *)

(** title comparison, apop_data.m4.c:1298-1301, for match 'c' and 'e' *)
Definition title_ok (exact : bool) (want : string) p : bool :=
  match title (nms p) with
  | None => false
  | Some t => if exact then String.eqb t want else ci_eq t want
  end.
(** apop_data.m4.c:1290-1305 apop_data_get_page: position of the page returned ([None]: NULL).
    On a self-linked page that does not match, the walk never ends: Fuel. *)
Fixpoint get_page (d : adata E) (ok : page E -> bool) : res (option nat) :=
  match d with
  | Last p => Ok (if ok p then Some 0 else None)
  | Loop p => if ok p then Ok (Some 0) else Fuel
  | Cons p r => if ok p then Ok (Some 0) else do k <- get_page r ok; Ok (option_map S k)
  end.
Definition set_title p (s : string) : page E :=
  let n := nms p in set_nms p (Nm (Some s) (vecn n) (rown n) (coln n) (txtn n) (rowh n) (colh n) (txth n)).
(** apop_data.m4.c:1317-1329 apop_data_add_page, both data sets non-NULL. newpage may be a chain. *)
Fixpoint append (d e : adata E) : res (adata E) :=
  match d with Last p => Ok (Cons p e) | Loop p => Fuel | Cons p r => do r' <- append r e; Ok (Cons p r') end.
Definition add_page (d new : adata E) (t : option string) : res (adata E) :=
  append d (match t with Some s => set_head new (set_title (head new) s) | None => new end).
(** apop_data.m4.c:1357-1378 apop_data_rm_page: remaining chain and the page taken out.  strcasecmp on a
    NULL title (1364) is UB. *)
Fixpoint rm_page (d : adata E) (want : string) : res (adata E * option (page E)) :=
  match d with
  | Last p => Ok (Last p, None)
  | Loop p => match title (nms p) with
              | None => UB
              | Some t => if ci_eq t want then Ok (Last p, Some p) else Fuel
              end
  | Cons p r =>
    match title (nms (head r)) with
    | None => UB
    | Some t =>
      if ci_eq t want then
        match r with
        | Last q => Ok (Last p, Some q)
        | Cons q r' => Ok (Cons p r', Some q)
        | Loop q => UB   (* p->more = q again, then q->more = NULL: not modelled *)
        end
      else do (r', o) <- rm_page r want; Ok (Cons p r', o)
    end
  end.

(** -------- transposition (value level) -------- *)
Definition gtranspose {A} (m : grid A) : grid A :=
  Gr (gc m) (gr m) (map (fun j => omap (fun r => r !! j) (ga m)) (seq 0 (gc m))).
(** apop_data.m4.c:1133-1140: names swapped in place; the hash arrays are not *)
Definition names_swap (n : names) : names :=
  Nm (title n) (vecn n) (coln n) (rown n) (txtn n) (rowh n) (colh n) (txth n).
(** apop_data.m4.c:1111-1195 apop_data_transpose.  The format-string use of the text at 1190 (a '%' in the
    text) is UB unless the text has no '%'; that is [no_pct]. *)
Definition has_pct (s : string) : bool := existsb (fun c => (c =? "%")%char) (list_ascii_of_string s).
Definition no_pct (t : grid string) : bool := negb (existsb (existsb has_pct) (ga t)).
Definition data_transpose p (transpose_text inplace : bool) : res (page E) :=
  if (match mat p with None => true | _ => false end) && (tsz1 p =? 0) then Ok blank
  else
    let tnames o := if negb (length (txtn (nms p)) =? 0) && (length (coln (if inplace then nms o else nms p)) =? 0)
                    then set_nms o (name_stack (nms o) (if inplace then nms o else nms p) "t" "r") else o in
    if inplace then
      let o := set_nms (set_mat p (option_map gtranspose (mat p))) (names_swap (nms p)) in
      if transpose_text && has_text p then
        Ok (tnames (set_txt o (option_map gtranspose (txt p))))
      else Ok o
    else
      let o := match mat p with
               | Some m => set_nms (set_mat blank (Some (gtranspose m)))
                                   (name_stack (name_stack name_alloc (nms p) "r" "c") (nms p) "c" "r")
               | None => blank end in
      if transpose_text && has_text p then
        match txt p with
        | Some t => if no_pct t then Ok (tnames (set_txt o (Some (gtranspose t)))) else UB
        | None => Ok o
        end
      else Ok o.
(** -------- listwise deletion -------- *)

Section Listwise.
Variable isnan : E -> bool.          (* gsl_isnan *)
Variable nan_string : option string. (* apop_opts.nan_string *)

(** apop_missing_data.m4.c:48: gsl_isnan(apop_data_get(d,i,j)); an out-of-range get aborts in GSL's default
    handler: UB *)
Definition lw_nan p (i : nat) (j : Z) : res bool :=
  match get_at p (Z.of_nat i) j with GotNaN => Ok true | GotRange => UB | Got x => Ok (isnan x) end.
Fixpoint any_res (l : list (res bool)) : res bool :=
  match l with [] => Ok false | r :: l' => do b <- r; if b then Ok true else any_res l' end.
Fixpoint all_res {A} (l : list (res A)) : res (list A) :=
  match l with [] => Ok [] | r :: l' => do b <- r; do bs <- all_res l'; Ok (b :: bs) end.
(** the columns firstcol .. msize2-1 (apop_internal.h:9) *)
Definition lw_cols p : list Z :=
  let k := match vect p with Some _ => 1 | None => 0 end in
  map (fun j => (Z.of_nat j - Z.of_nat k)%Z) (seq 0 (msz2 p + k)).
(** 46-52 *)
Definition num_marks p : res (list bool) :=
  all_res (map (fun i => any_res (map (lw_nan p i) (lw_cols p))) (seq 0 (if vsz p =? 0 then msz1 p else vsz p))).
(** 53-55: marked[i] for i beyond the array is UB *)
Fixpoint or_wts (w : list E) (marks : list bool) : res (list bool) :=
  match w, marks with
  | [], _ => Ok marks
  | x :: w', b :: m' => do r <- or_wts w' m'; Ok ((isnan x || b) :: r)
  | _, [] => if existsb isnan w then UB else Ok []
  end.
(** 56-64 *)
Fixpoint or_text (rows : list (list string)) (marks : list bool) : list bool :=
  match rows, marks, nan_string with
  | r :: rs, b :: ms, Some ns => (b || existsb (fun s => ci_eq ns s) r) :: or_text rs ms
  | _, _, _ => marks
  end.
(** apop_missing_data.m4.c:34-80 apop_data_listwise_delete, non-NULL input; result NULL = None *)
Definition listwise_delete (d : adata E) (inplace : bool) : res (option (adata E)) :=
  let p := head d in
  if (msz1 p =? 0) && (vsz p =? 0) && (tsz1 p =? 0) then Ok None
  else
    do nm <- num_marks p;
    let len := Nat.max (if vsz p =? 0 then msz1 p else vsz p) (tsz1 p) in
    do m1 <- or_wts (match wts p with Some w => w | None => [] end) (nm ++ replicate (len - length nm) false);
    let marks := or_text (match txt p with Some t => ga t | None => [] end) m1 in
    if forallb id marks then Ok None
    else
      do out <- (if inplace then Ok d else data_copy d);
      Ok (Some (set_head out (rm_rows (head out) (Some marks) None))).
End Listwise.

(** -------- views -------- *)

(** apop.m4.h Apop_subvector *)
Definition view_vec (v : option (list E)) (start len : nat) : option (list E) :=
  match v with
  | None => None
  | Some v => if length v <? start + len then None else Some (take len (drop start v))
  end.
(** apop.m4.h:759-766 Apop_subm *)
Definition view_mat {A} (m : option (grid A)) (srow scol nr nc : nat) : option (grid A) :=
  match m with
  | None => None
  | Some m => if (gr m <? srow + nr) || (gc m <? scol + nc) then None
              else Some (Gr nr nc (map (fun r => take nc (drop scol r)) (take nr (drop srow (ga m)))))
  end.
(** apop.m4.h:858-882 Apop_rs(d, rownum, len), rownum >= 0: rowct is min(1, rowct - rownum), so at most one
    row name is visible.  A text view with textsize[0] = 0 is [None]. *)
Definition view_rows p (rownum len : nat) : page E :=
  let n := nms p in
  let k := Nat.min 1 (length (rown n) - rownum) in
  Pg (view_vec (vect p) rownum len)
     (match mat p with Some m => view_mat (mat p) rownum 0 len (gc m) | None => None end)
     (view_vec (wts p) rownum len)
     (match txt p with
      | Some t => if rownum + len <=? gr t then Some (Gr len (gc t) (take len (drop rownum (ga t)))) else None
      | None => None end)
     (Nm (title n) (vecn n) (take k (drop rownum (rown n))) (coln n) (txtn n)
         (drop rownum (rowh n)) (colh n) (txth n)) None.
(** apop.m4.h:892-916 Apop_cs(d, colnum, len); NULL = None.  textct is kept although .text = NULL (not
    representable here: the text names of the view are []). *)
Definition view_cols p (colnum len : nat) : option (page E) :=
  match mat p with
  | None => None
  | Some m =>
    if gc m <=? colnum + len - 1 then None
    else
      let n := nms p in
      let k := Nat.min len (length (coln n) - colnum) in
      Some (Pg None (view_mat (mat p) 0 colnum (gr m) len) (wts p) None
              (Nm (title n) None (rown n) (take k (drop colnum (coln n))) [] (rowh n) (drop colnum (colh n)) []) None)
  end.
End DataM.
