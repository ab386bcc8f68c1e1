(** Model of the raking of apop_rake.m4.c: the index of the cells (40-158) and c_loglin with its helpers (175-331).
    The SQL that makes the two tables is not modelled.  Doubles are reals, [None] is NaN; infinite values (also used as the sentinel that ends each list of values) do not occur in the data. *)
From Coq Require Import Reals.
From Verif Require Import DataModel StatsModel FactModel.
Local Open Scope list_scope.
Local Open Scope nat_scope.

(** 41-44, mnode_t; a column of the index is the list of its nodes, without the sentinel *)
Record mnode := Mn { mval : num; mptrs : list bool; fptrs : list bool }.
(** <= and == of C, false with NaN *)
Definition d_le (a b : num) : bool := match a, b with Some x, Some y => bool_of (Rle_dec x y) | _, _ => false end.
Definition d_eq (a b : num) : bool := match a, b with Some x, Some y => bool_of (Req_EM_T x y) | _, _ => false end.
Definition d_nan (a : num) : bool := match a with None => true | Some _ => false end.
(** 49-54: the place, or None for -1.  At the sentinel +inf the loop ends, but for NaN it reads on beyond the end. *)
Fixpoint find_val (x : num) (l : list mnode) (i : nat) : res (option nat) :=
  match l with
  | [] => if d_nan x then UB else Ok None
  | n :: r => if d_le (mval n) x || d_nan x then
                if d_eq (mval n) x || (d_nan x && d_nan (mval n)) then Ok (Some i) else find_val x r (S i)
              else Ok None
  end.
(** 57-63 on the list of the dimension: the list, and false for -1 *)
Definition add_node (col : list mnode) (row : nat) (x : num) (is_margin : bool) : res (list mnode * bool) :=
  do k <- find_val x col 0;
  match k with
  | None => Ok (col, false)
  | Some k => Ok (alter (fun n => if is_margin then Mn (mval n) (<[row := true]> (mptrs n)) (fptrs n) else Mn (mval n) (mptrs n) (<[row := true]> (fptrs n))) k col, true)
  end.
(** 84-89: all rows of a column, from row [j].  A margin value that is not found ends the indexing with a message; here UB, and C73_terminates shows that it does not occur. *)
Fixpoint add_column (col : list mnode) (vals : list num) (j : nat) (is_margin : bool) : res (list mnode) :=
  match vals with
  | [] => Ok col
  | x :: r => do (col', found) <- add_node col j x is_margin; if is_margin && negb found then UB else add_column col' r (S j) is_margin
  end.
(** column [i] of a table; all its rows must have it *)
Definition table_col (rows : list (list num)) (i : nat) : res (list num) := all_res (map (fun r => match r !! i with Some x => Ok x | None => UB end) rows).
(** 66-92, index_generate, one dimension *)
Definition index_column (mrows frows : list (list num)) (i : nat) : res (list mnode) :=
  do mv <- table_col mrows i;
  do fv <- table_col frows i;
  do u <- unique_elements ncmp mv;
  do c1 <- add_column (map (fun v => Mn v (replicate (length mv) false) (replicate (length fv) false)) u) mv 0 true;
  add_column c1 fv 0 false.
Definition index_generate (width : nat) (mrows frows : list (list num)) : res (list (list mnode)) := all_res (map (index_column mrows frows) (seq 0 width)).
(** 111-140, value_loop and index_foreach: [f] is given the nodes chosen, one for each dimension, and the counter.  Without any dimension NULL is dereferenced. *)
Fixpoint value_loop {S} (icon : list (list mnode)) (chosen : list mnode) (f : list mnode -> nat -> S -> res S) (st : nat * S) : res (nat * S) :=
  match icon with
  | [] => UB
  | col :: rest =>
      fold_left (fun acc n => do st <- acc;
        match rest with
        | [] => do s <- f (chosen ++ [n]) (fst st) (snd st); Ok (Datatypes.S (fst st), s)
        | _ => value_loop rest (chosen ++ [n]) f st
        end) col (Ok st)
  end.
(** 151-158: the and of the lists of the nodes *)
Definition element_list (nodes : list mnode) (is_margin : bool) : list bool :=
  let ptrs n := if is_margin then mptrs n else fptrs n in
  match nodes with [] => [] | n :: r => fold_left (fun d m => zip_with andb d (ptrs m)) r (ptrs n) end.

Section raking.
  Context (mrows : list (list num)) (mw : list R) (frows : list (list num)).
  Local Open Scope R_scope.
  (** 193-204: the weights and maxdev.  The elements are rows of the table. *)
  Definition scaling (elmts : list nat) (w : list R) (in_sum maxdev : R) : list R * R :=
    let fit_sum := fold_left (fun s i => s + nth i w 0) elmts 0 in
    if Req_EM_T fit_sum 0 then (w, maxdev) else
    let '(w', out_sum) := fold_left (fun '(w, o) i => let x := nth i w 0 * (in_sum / fit_sum) in (<[i := x]> w, o + x)) elmts (w, 0) in
    (w', Rmax (Rabs (fit_sum - out_sum)) maxdev).
  (** what a contrast notes on the first pass (elmtlist, indata_values) and the space for notes (al) *)
  Record notes := Nt { noted : list (list nat * R); space : nat }.
  (** 232-239: the elements, from row [m]; [n] are in the list, which has room for [al] *)
  Fixpoint collect (flags : list bool) (m n al : nat) : res (list nat) :=
    match flags with
    | [] => Ok []
    | b :: r => if b then let al := if (al <=? n)%nat then ((al + 1) * 2)%nat else al in
                  if (n <? al)%nat then do l <- collect r (S m) (S n) al; Ok (m :: l) else UB
                else collect r (S m) n al
    end.
  (** 209-246, one_set_of_values; the nodes are NULL on later passes *)
  Definition one_set (nodes : option (list mnode)) (ctr : nat) (st : notes * list R * R) : res (notes * list R * R) :=
    let '(nt, w, dev) := st in
    do (nt', elmts, in_sum, first) <- match noted nt !! ctr with
      | Some (e, s) => Ok (nt, e, s, false)
      | None => match nodes with None => UB | Some nodes =>
          let al := if (space nt <=? ctr)%nat || (space nt =? 0)%nat then ((space nt + 1) * 2)%nat else space nt in
          let s := fold_left (fun a '(b, x) => if b : bool then a + x else a) (combine (element_list nodes true) mw) 0 in
          do e <- collect (element_list nodes false) 0 0 0;
          if (ctr <? al)%nat then Ok (Nt (noted nt ++ [(e, s)]) al, e, s, true) else UB end
      end;
    if (length elmts =? 0)%nat then Ok (nt', w, dev)
    else if negb first && bool_of (Req_EM_T in_sum 0) then Ok (nt', w, dev)
    else let '(w', dev') := scaling elmts w in_sum dev in Ok (nt', w', dev').
  (** 250-256 for one contrast, whose index is [icon] *)
  Definition one_contrast (first : bool) (icon : list (list mnode)) (st : notes * list R * R) : res (notes * list R * R) :=
    if first then do (_, s) <- value_loop icon [] (fun nodes => one_set (Some nodes)) (0%nat, st); Ok s
    else fold_left (fun acc m => do s <- acc; one_set None m s) (seq 0 (length (noted (fst (fst st))))) (Ok st).
  (** 250-256, main_loop, over the contrasts with their notes *)
  Fixpoint main_loop (first : bool) (l : list (list (list mnode) * notes)) (w : list R) (dev : R) : res (list (list (list mnode) * notes) * list R * R) :=
    match l with
    | [] => Ok ([], w, dev)
    | (icon, nt) :: r => do (nt', w', dev') <- one_contrast first icon (nt, w, dev); do (r', w2, dev2) <- main_loop first r w' dev'; Ok ((icon, nt') :: r', w2, dev2)
    end.
  (** 314-325: round [k] and those after it, at most [n]: the weights and k at the end *)
  Fixpoint rounds (tol : R) (n k : nat) (l : list (list (list mnode) * notes)) (w : list R) : res (list R * nat) :=
    match n with
    | 0%nat => Ok (w, k)
    | S n' => do (l', w', dev) <- main_loop (k =? 1)%nat l w 0; if Rlt_dec dev tol then Ok (w', k) else rounds tol n' (S k) l' w'
    end.
  (** 289-331, c_loglin; 260-267: a contrast is the list of the columns of the index marked in it.  The result: weights, k and the error.  None: the weights of the fit sum to zero, so that all become NaN or infinite. *)
  Record rake_out := RO { rweights : list R; rk : nat; rerr : option ascii }.
  Definition c_loglin (config : list (list bool)) (width : nat) (w : list R) (tol : R) (maxit : nat) : res (option rake_out) :=
    do index <- index_generate width mrows frows;
    match cdiv (fold_left Rplus mw 0) (fold_left Rplus w 0) with
    | None => Ok None
    | Some s =>
        do (w', k) <- rounds tol maxit 1 (map (fun c => (keep_by c index, Nt [] 0)) config) (map (fun x => x * s) w);
        Ok (Some (RO w' k (if (k =? maxit)%nat then Some "c"%char else None)))
    end.
End raking.
