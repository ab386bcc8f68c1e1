(** Model of apop_regression.m4.c: unique elements (39-111), factor names (113-160), factors and dummies (162-446), R squared (448-535). *)
From Coq Require Import Reals.
From Verif Require Import DataModel StatsModel.
Local Open Scope list_scope.
Local Open Scope nat_scope.

(** a double: [None] is NaN *)
Notation num := (option R).
(** 39-45, compare_doubles *)
Definition ncmp (a b : num) : comparison :=
  match a, b with
  | None, None => Eq
  | None, Some _ => Gt
  | Some _, None => Lt
  | Some x, Some y => if Rlt_dec x y then Lt else if Rlt_dec y x then Gt else Eq
  end.
(** strcmp: 48-52 *)
Fixpoint scmp (a b : string) : comparison :=
  match a, b with
  | EmptyString, EmptyString => Eq
  | EmptyString, _ => Lt
  | _, EmptyString => Gt
  | String c a', String d b' => match Nat.compare (nat_of_ascii c) (nat_of_ascii d) with Eq => scmp a' b' | x => x end
  end.

Section order.
  Context {A : Type} (cmp : A -> A -> comparison).
  Definition is_eq (a b : A) : bool := match cmp a b with Eq => true | _ => false end.
  (** qsort, of a list without duplicates (so that there is just one sorted order) *)
  Fixpoint oinsert (x : A) (l : list A) : list A :=
    match l with [] => [x] | y :: r => match cmp x y with Gt => y :: oinsert x r | _ => x :: l end end.
  Definition osort (l : list A) : list A := fold_right oinsert [] l.
  (** 63-79: [cap] elements are allocated, [prior] is prior_elmt_ctr.  lsearch writes a new element after the last. *)
  Fixpoint unique_loop (v : list A) (cap prior : nat) (elmts : list A) : res (list A) :=
    match v with
    | [] => Ok elmts
    | x :: r =>
        let cap := if prior =? length elmts then cap else S (length elmts) in
        if existsb (is_eq x) elmts then unique_loop r cap (length elmts) elmts
        else if length elmts <? cap then unique_loop r cap (length elmts) (osort (elmts ++ [x])) else UB
    end.
  Definition unique_elements (v : list A) : res (list A) := unique_loop v 0 107 [].
  (** 90-111: [cap] elements are allocated *)
  Fixpoint tunique_loop (v : list A) (cap : nat) (elmts : list A) : res (list A) :=
    match v with
    | [] => Ok elmts
    | x :: r =>
        if existsb (is_eq x) elmts then tunique_loop r cap elmts
        else if length elmts <? cap then let e := osort (elmts ++ [x]) in tunique_loop r (S (length e)) e else UB
    end.
  Definition tunique_elements (v : list A) : res (list A) := match v with [] => UB | x :: r => tunique_loop r 2 [x] end.
  (** bsearch, as in the GNU library *)
  Fixpoint bsearch_loop (fuel : nat) (l : list A) (x : A) (lo hi : nat) : option nat :=
    match fuel with
    | 0 => None
    | S f => if lo <? hi then
        let m := (lo + hi) / 2 in
        match l !! m with
        | None => None
        | Some y => match cmp x y with Lt => bsearch_loop f l x lo m | Gt => bsearch_loop f l x (S m) hi | Eq => Some m end end
        else None
    end.
  Definition bsearch (l : list A) (x : A) : option nat := bsearch_loop (S (length l)) l x 0 (length l).
End order.

Section factors.
  (** the content of new memory; %i and %g *)
  Context (g : num) (show_i : Z -> string) (show_g : num -> string).
  Local Open Scope string_scope.
  (** 113-133 *)
  Definition factor_basename (n : names) (col : Z) (text : bool) : string :=
    let c := Z.to_nat col in
    match (if text && (col <? Z.of_nat (length (txtn n)))%Z then txtn n !! c
           else match (if (col =? -1)%Z then vecn n else None) with
             | Some s => Some s
             | None => if (0 <=? col)%Z && (col <? Z.of_nat (length (coln n)))%Z then coln n !! c else None end) with
    | Some s => s
    | None => if text then ("text column " ++ show_i col)%string else if (col =? -1)%Z then "vector" else ("column " ++ show_i col)%string
    end.
  (** 135-140 *)
  Definition catname (n : names) (col : Z) (text : bool) : string := ("<categories for " ++ factor_basename n col text ++ ">")%string.
  Local Close Scope string_scope.
  (** the column of a data set: Apop_cv, and the text column *)
  Definition num_column (p : page num) (col : Z) : res (list num) :=
    if (col =? -1)%Z then match vect p with Some v => Ok v | None => UB end
    else match mat p with Some m => if (0 <=? col)%Z && (col <? Z.of_nat (gc m))%Z then Ok (colv m (Z.to_nat col)) else UB | None => UB end.
  Definition text_column (p : page num) (col : nat) : res (list string) :=
    match txt p with Some t => if col <? gc t then Ok (colv t col) else UB | None => UB end.
  Definition one_column (l : list string) : grid string := Gr (length l) 1 (map (fun s => [s]) l).
  Definition number (i : nat) : num := Some (INR i).
  (** 162-188, create_factor_list: the page.  103: each text is taken for a format *)
  Definition factor_page (p : page num) (col : Z) (text : bool) : res (page num) :=
    let fill := fun q => set_title q (catname (nms p) col text) in
    if text then
      do c <- text_column p (Z.to_nat col);
      do u <- tunique_elements scmp c;
      if existsb has_pct u then UB else Ok (fill (Pg (Some (map number (seq 0 (length u)))) None None (Some (one_column u)) name_alloc None))
    else
      do c <- num_column p col;
      do u <- unique_elements ncmp c;
      Ok (fill (Pg (Some u) None None (if length u =? 0 then None else Some (one_column (map show_g u))) name_alloc None)).
  (** the categories of a page: 205-211.  A list shorter than the page (maxsize) would be read beyond its end.  210, 1190 of apop_data: the text is a format *)
  Definition text_cats (f : page num) : res (list string) :=
    match txt f with
    | Some t => if (gr t =? maxsize f) && (0 <? gc t) && no_pct t then Ok (colv t 0) else UB
    | None => UB end.
  Definition num_cats (f : page num) : res (list num) :=
    match vect f with Some v => if length v =? maxsize f then Ok v else UB | None => UB end.
  (** apop_matrix_realloc to [k] columns (MemModel, C14), then column k-1 set to zero *)
  Definition widen (m : grid num) (k : nat) : grid num :=
    Gr (gr m) k (map (fun r => <[k - 1 := Some 0%R]> (take k r ++ replicate (k - length r) g)) (ga m)).
  Section core.
    Context {A : Type} (cmp : A -> A -> comparison) (text dummy keep : bool) (outcol : Z).
    Context (d : page num) (read : page num -> nat -> res A) (bad : A -> bool).
    (** 231-236, 241-255: the category is new.  [k]: the new number of categories *)
    Definition grow (x : A) (out : page num) (k : nat) : res (page num) :=
      if text then
        if bad x then UB else
        if dummy then match mat out with Some m => Ok (set_mat out (Some (widen m (S (gc m))))) | None => UB end else Ok out
      else match mat out with Some m => Ok (set_mat out (Some (widen m k))) | None => UB end.
    (** 258-265; GSL checks the range *)
    Definition set1 (out : page num) (i j : nat) : res (page num) :=
      match mat out with Some m => if (i <? gr m) && (j <? gc m) then Ok (set_mat out (Some (gset m i j (Some 1%R)))) else UB | None => UB end.
    Definition place (out : page num) (i k : nat) : res (page num) :=
      if dummy then if keep then set1 out i k else match k with 0 => Ok out | S k' => set1 out i k' end
      else Ok (fst (set_at out (Z.of_nat i) outcol (number k))).
    (** 222-266: [n] rows still to do, [i] done *)
    Fixpoint core_loop (n i : nat) (cats : list A) (out : page num) : res (list A * page num) :=
      match n with
      | 0 => Ok (cats, out)
      | S n' =>
          do x <- read (if dummy then d else out) i;
          do (k, cats', out') <- match bsearch cmp cats x with
            | Some k => Ok (k, cats, out)
            | None => do o <- grow x out (S (length cats)); Ok (length cats, cats ++ [x], o) end;
          do out2 <- place out' i k;
          core_loop n' (S i) cats' out2
      end.
  End core.
  Definition read_text (col : nat) (p : page num) (i : nat) : res string :=
    match txt p with Some t => match cell t i col with Some s => Ok s | None => UB end | None => UB end.
  Definition read_num (col : Z) (p : page num) (i : nat) : res num :=
    match get_at p (Z.of_nat i) col with Got x => Ok x | GotNaN => Ok None | GotRange => UB end.
  (** 267-279: the names, each made in 1000 bytes *)
  Definition dummy_names (n : names) (base : string) (l : list string) : res names :=
    if existsb (fun s => 1000 <=? String.length s) l then UB else Ok (add_all n l "c"%char).
  (** the rows of a column: 216-218 *)
  Definition rows_of (p : page num) (col : Z) (text : bool) : res nat :=
    if text then Ok (tsz1 p) else if (0 <=? col)%Z then match mat p with Some m => Ok (gr m) | None => UB end else match vect p with Some v => Ok (length v) | None => UB end.
  (** page [k] of a data set replaced *)
  Fixpoint set_page (d : adata num) (k : nat) (q : page num) : adata num :=
    match d, k with
    | Cons p r, S k' => Cons p (set_page r k' q)
    | _, _ => set_head d q
    end.
  (** 196-282, dummies_and_factors_core: the data set (its page of categories and, for factors, its numbers changed), the page of dummies and the page of categories *)
  Definition core (d : adata num) (col : Z) (text dummy keep : bool) (outcol : Z) : res (adata num * option (page num) * page num) :=
    do found <- get_page d (title_ok true (catname (nms (head d)) col text));
    do (d1, k) <- match found with
      | Some k => Ok (d, k)
      | None => do f <- factor_page (head d) col text; do d' <- append d (Last f); Ok (d', length (pages d)) end;
    do f <- match pages d1 !! k with Some f => Ok f | None => UB end;
    do s <- rows_of (head d1) col text;
    let out n := if dummy then data_alloc_filled (Some 0%R) 0 s (Z.of_nat (if keep then n else n - 1)) else head d1 in
    if text then
      do cats <- text_cats f;
      do (cats', o) <- core_loop scmp true dummy keep outcol (head d1) (read_text (Z.to_nat col)) has_pct s 0 cats (out (length cats));
      let f' := set_txt (set_vec f (Some (match vect f with Some v => v | None => [] end ++ map number (seq (length cats) (length cats' - length cats)))))
                        (Some (one_column cats')) in
      let f' := if length cats =? length cats' then f else f' in
      if dummy then
        do n <- dummy_names (nms o) EmptyString (if keep then cats' else tail cats');
        Ok (set_page d1 k f', Some (set_nms o n), f')
      else Ok (set_page (set_head d1 o) k f', None, f')
    else
      do cats <- num_cats f;
      do (cats', o) <- core_loop ncmp false dummy keep outcol (head d1) (read_num col) (fun _ => false) s 0 cats (out (length cats));
      let f' := set_vec f (Some cats') in
      if dummy then
        do n <- dummy_names (nms o) EmptyString (map (fun x => (factor_basename (nms (head d1)) col false ++ " dummy " ++ show_g x)%string) (if keep then cats' else tail cats'));
        Ok (set_page d1 k f', Some (set_nms o n), f')
      else Ok (set_page (set_head d1 o) k f', None, f').
  (** what a call returns: a data set with an error (C50: E), or the data set as it is afterwards and a page *)
  Inductive fout := FErr | FOut (d : adata num) (ret : page num).
  (** 327-377, apop_data_to_dummies without append and remove.  338: the vector may not be there. *)
  Definition dummies_check (p : page num) (col : Z) (text : bool) : res bool :=
    if text then Ok ((0 <=? col)%Z && (col <? Z.of_nat (tsz2 p))%Z)
    else if (col =? -1)%Z then Ok (match vect p with Some _ => false | None => true end)
    else match mat p with Some m => Ok ((0 <=? col)%Z && (col <? Z.of_nat (gc m))%Z) | None => UB end.
  Definition data_to_dummies (d : adata num) (col : Z) (text keep : bool) : res fout :=
    do ok <- dummies_check (head d) col text;
    if ok then do (d', o, _) <- core d col text true keep 0; match o with Some o => Ok (FOut d' o) | None => UB end else Ok FErr.
  (** 348-376: with the dummies made: remove and append at the end.  349: the list of columns to remove has as many elements as there are rows, and one *)
  Definition dummies_append (d : adata num) (dummies : page num) (col : Z) (text remove append_end : bool) : res (adata num) :=
    let rows := msz1 (head d) in
    do d1 <- (if remove && negb text then
        if (0 <=? col)%Z && (col <=? Z.of_nat rows)%Z then
          do q <- rm_columns (head d) (<[Z.to_nat col := true]> (replicate (S rows) false)); Ok (set_head d q)
        else UB
      else Ok d);
    if append_end then do r <- data_stack g (Some d1) (Some (Last dummies)) "c"%char true; match r with Some x => Ok x | None => UB end else Ok d1.
  (** 352-369, append in place: the matrix and the column names, where [None] is a name that was freed.  The option to remove is not looked at. *)
  Definition dummies_insert (d : adata num) (dummies : page num) (col : Z) : res (option (grid num) * list (option string)) :=
    do (s0, s1) <- data_split g d (col + 1)%Z "c"%char;
    match s0, s1 with
    | Some s0, Some s1 =>
        let left := head s0 in let right := head s1 in
        let n0 := map (fun _ => None) (coln (nms (head d))) ++ map Some (coln (nms left)) in
        let n1 := n0 ++ replicate (msz2 left - length n0) (Some EmptyString) in
        let m := mstack false (mat left) (mat dummies) in
        Ok (mstack false m (mat right), n1 ++ map Some (coln (nms dummies)) ++ map Some (coln (nms right)))
    | _, _ => UB end.
  (** 405-446, apop_data_to_factors: the data set and the page of categories.  426-429: the space made has the columns, not the rows, of the matrix. *)
  Definition factors_check (p : page num) (col : Z) (text : bool) : bool :=
    if text then (0 <=? col)%Z && (col <? Z.of_nat (tsz2 p))%Z
    else if (col =? -1)%Z then match vect p with Some _ => true | None => false end
    else match mat p with Some m => (0 <=? col)%Z && (col <? Z.of_nat (gc m))%Z | None => false end.
  Definition data_to_factors (d : adata num) (incol outcol : Z) (text : bool) : res fout :=
    let p := head d in
    if factors_check p incol text then
      do p1 <- match vect p with
        | None => if (outcol =? -1)%Z then do n <- (if text then Ok (tsz1 p) else match mat p with Some m => Ok (gc m) | None => UB end); Ok (set_vec p (Some (replicate n g))) else Ok p
        | Some _ => Ok p end;
      do p2 <- match mat p with
        | None => if (0 <=? outcol)%Z then if text then Ok (set_mat p1 (Some (new_grid (tsz1 p) (S (Z.to_nat outcol)) (Some 0%R)))) else UB else Ok p1
        | Some _ => Ok p1 end;
      do (d', _, f) <- core (set_head d p2) incol text false true outcol;
      Ok (FOut d' f)
    else Ok FErr.
End factors.
(** 526-546: SSE (ddot; with weights, of the weights times the residuals with the residuals, where GSL checks the lengths), SST (apop_vector_var times one less than the rows), R squared, adjusted R squared, SSR.
    [cols]: of the data's matrix; [observed], [residual]: columns of the page of predictions.  The subtraction of 543 is of unsigned integers: it is taken for one of reals, right when cols <= rows + 1.
    [None]: not a number, or the GSL error *)
Record rsq_out := Rsq { o_rsq : option R; o_adj : option R; o_sse : R; o_sst : R; o_ssr : R }.
Definition r_squared (cols : nat) (observed residual : list R) (w : option (list R)) : option rsq_out :=
  let obs := INR (length observed) in
  match (match w with
    | None => Some (fold_left (fun s x => (s + x * x)%R) residual 0%R)
    | Some w => if length w =? length residual then Some (fold_left (fun s x => (s + x)%R) (zip_with (fun a b => (a * b * b)%R) w residual) 0%R) else None end) with
  | None => None
  | Some sse =>
    match vector_var observed w with
    | None => None
    | Some v =>
        let sst := (v * (obs - 1))%R in
        let rsq := option_map (fun q => (1 - q)%R) (cdiv sse sst) in
        let adj := match rsq, cdiv (obs - 1)%R (obs - INR (cols - 1))%R with Some r, Some q => Some (1 - q * (1 - r))%R | _, _ => None end in
        Some (Rsq rsq adj sse sst (sst - sse)%R) end
  end.
