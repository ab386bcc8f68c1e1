(** Model of apop_db_sqlite.c (the aggregates 12-128, the callbacks 176-329), apop_db.m4.c (queries 233-470, apop_data_to_db 500-668) and the insertion of text of apop_conversions.m4.c (985-1067).
    SQLite itself is not modelled: a query gives column names and rows of texts (or NULL), or fails; an insertion adds a row of values. *)
From Coq Require Import Reals.
From Verif Require Import DataModel StatsModel.
Local Open Scope list_scope.
Local Open Scope nat_scope.

(** ---------- aggregates ---------- *)
(** apop_db_sqlite.c:14-20, StdDevCtx; SQLite gives a new one filled with zeros *)
Record agg := Agg { a1 : R; a2 : R; a3 : R; a4 : R; cnt : nat }.
Definition agg0 : agg := Agg 0 0 0 0 0.
(** 27, 41, 57: sqlite3_value_double: NULL and text without a number are 0 *)
Definition value_double (x : option R) : R := match x with Some r => r | None => 0%R end.
Section aggregates.
  Local Open Scope R_scope.
  (** 23-35 *)
  Definition two_step (p : agg) (v : option R) : agg :=
    let x := value_double v in let ratio := INR (cnt p) / (INR (cnt p) + 1) in let c := S (cnt p) in
    Agg (a1 p * ratio + x / (INR c + 0)) (a2 p * ratio + x * x / (INR c + 0)) (a3 p) (a4 p) c.
  (** 37-51 *)
  Definition three_step (p : agg) (v : option R) : agg :=
    let x := value_double v in let ratio := INR (cnt p) / (INR (cnt p) + 1) in let c := S (cnt p) in
    Agg (a1 p * ratio + x / INR c) (a2 p * ratio + x * x / INR c) (a3 p * ratio + x * x * x / INR c) (a4 p) c.
  (** 53-64 *)
  Definition four_step (p : agg) (v : option R) : agg :=
    let x := value_double v in let c := S (cnt p) in let n := INR c in
    Agg ((x + a1 p * (n - 1)) / n) ((x * x + a2 p * (n - 1)) / n) ((x * x * x + a3 p * (n - 1)) / n) (((x * x) * (x * x) + a4 p * (n - 1)) / n) c.
  (** the result: [None] is NULL; SQLite turns a NaN into NULL, too.  Infinity is also [None]. *)
  Definition final (p : agg) (f : R -> option R) : option R :=
    if (1 <? cnt p)%nat then f (INR (cnt p)) else if (cnt p =? 1)%nat then Some 0 else None.
  (** 66-72, 74-80, 82-90, 92-100 *)
  Definition std_pop (p : agg) : option R := final p (fun _ => csqrt (a2 p - a1 p * a1 p)).
  Definition var_pop (p : agg) : option R := final p (fun _ => Some (a2 p - a1 p * a1 p)).
  Definition std_samp (p : agg) : option R := final p (fun n => try v <- cdiv ((a2 p - a1 p * a1 p) * n) (n - 1); csqrt v).
  Definition var_samp (p : agg) : option R := final p (fun n => cdiv ((a2 p - a1 p * a1 p) * n) (n - 1)).
  (** 102-111 *)
  Definition skew_fin (p : agg) : option R :=
    final p (fun n => cdiv ((a3 p * n - 3 * a2 p * a1 p * n + 2 * n * (a1 p * a1 p * a1 p)) * n) ((n - 1) * (n - 2))).
  (** 113-128 *)
  Definition kurt_fin (p : agg) : option R :=
    final p (fun n =>
      let k := a4 p - 4 * a3 p * a1 p + 6 * a2 p * (a1 p * a1 p) - 3 * ((a1 p * a1 p) * (a1 p * a1 p)) in
      let va := a2 p - a1 p * a1 p in
      try c0 <- cdiv (n * n) (n * n * n * (n * n - 3 * n + 3));
      let c1 := n * ((n - 1) * (n - 1)) + (6 * n - 9) in
      let c2 := n * (6 * n - 9) in
      Some (c0 * (c1 * k + c2 * (va * va)))).
End aggregates.
(** 147-157: the functions by name; the rows of the group in any order *)
Definition aggregate (name : string) (l : list (option R)) : option (option R) :=
  let two := fold_left two_step l agg0 in
  match name with
  | "stddev" | "stddev_samp" => Some (std_samp two)
  | "std" | "stddev_pop" => Some (std_pop two)
  | "var" | "var_samp" => Some (var_samp two)
  | "var_pop" | "variance" => Some (var_pop two)
  | "skew" => Some (skew_fin (fold_left three_step l agg0))
  | "kurt" | "kurtosis" => Some (kurt_fin (fold_left four_step l agg0))
  | _ => None
  end%string.

(** ---------- queries ---------- *)
Notation num := (option R).
(** what a query gives: its columns, its rows, and whether there was an error (after these rows) *)
Record answer := An { acols : list string; arows : list (list (option string)); afail : bool }.
Section queries.
  (** what is in new memory; atof; apop_opts.nan_string; apop_opts.db_name_column *)
  Context (g : num) (atof : string -> num) (nan_string : option string) (name_column : option string).
  Definition is_nan_string (s : string) : bool := match nan_string with Some n => ci_eq n s | None => false end.
  (** apop_db.m4.c:283-289, apop_db_sqlite.c:182-188: the first column of that name *)
  Fixpoint find_column (i : nat) (cols : list string) : option nat :=
    match cols with
    | [] => None
    | c :: r => if match name_column with Some n => ci_eq c n | None => false end then Some i else find_column (S i) r
    end.
  Definition is_col (namecol : option nat) (i : nat) : bool := match namecol with Some k => i =? k | None => false end.
  (** apop_db.m4.c:300-303 *)
  Definition table_value (c : option string) : num :=
    match c with
    | None => None
    | Some s => if String.eqb s "NULL" || is_nan_string s then None else atof s
    end.
  (** 298-309: the columns from [j] on of row [row]; [sh] is ncfound *)
  Fixpoint table_row (namecol : option nat) (row j sh : nat) (vals : list (option string)) (p : page num) : res (page num) :=
    match vals with
    | [] => Ok p
    | v :: r =>
        if is_col namecol j then table_row namecol row (S j) 1 r (set_nms p (fst (name_add (nms p) v "r")))
        else match mat p with
          | Some m => if (row <? gr m) && (j - sh <? gc m) then table_row namecol row (S j) sh r (set_mat p (Some (gset m row (j - sh) (table_value v)))) else UB
          | None => UB end
    end.
  (** the names of the columns: 291-293 *)
  Fixpoint table_names (namecol : option nat) (j : nat) (cols : list string) (n : names) : names :=
    match cols with [] => n | c :: r => table_names namecol (S j) r (if is_col namecol j then n else add1 n c "c") end.
  Definition more_row (p : page num) (row : nat) : page num :=
    match mat p with
    | Some m => set_mat p (Some (Gr (S row) (gc m) (take (S row) (ga m) ++ replicate (S row - gr m) (replicate (gc m) g))))
    | None => p end.
  (** 276-311 *)
  Fixpoint table_rows (namecol : option nat) (row : nat) (rows : list (list (option string))) (p : page num) : res (page num) :=
    match rows with
    | [] => Ok p
    | v :: r => do q <- table_row namecol row 0 0 v (if row =? 0 then p else more_row p row); table_rows namecol (S row) r q
    end.
  (** 336-359: apop_query_to_data *)
  Definition query_to_data (a : answer) : res (option (page num)) :=
    let namecol := find_column 0 (acols a) in
    let w := length (acols a) - (match namecol with Some _ => 1 | None => 0 end) in
    do out <- match arows a with
      | [] => Ok None
      | _ => let p := if w =? 0 then blank else data_alloc_filled g 1 w 0 in
          do q <- table_rows namecol 0 (arows a) (set_nms p (table_names namecol 0 (acols a) name_alloc)); Ok (Some q)
      end;
    Ok (if afail a then Some (set_err (match out with Some q => q | None => blank end) (Some "q"%char)) else out).
  (** 383-406: apop_query_to_vector (the error is not looked at) *)
  Definition query_to_vector (a : answer) : res (option (list num)) :=
    do d <- query_to_data a;
    match d with
    | None => Ok None
    | Some p => match mat p with Some m => if 0 <? gc m then Ok (Some (colv m 0)) else UB | None => UB end
    end.
  (** 409-432: apop_query_to_float: apop_data_get at (0, 0) *)
  Definition query_to_float (a : answer) : res num :=
    do d <- query_to_data a;
    match d with
    | None => Ok None
    | Some p => if err p then Ok None else match get_at p 0 0 with Got x => Ok x | GotNaN => Ok None | GotRange => UB end
    end.

  (** apop_db_sqlite.c:193-202: a text is written as a format *)
  Definition text_set (p : page num) (i j : nat) (s : string) : res (page num) :=
    if has_pct s then UB
    else match txt p with Some t => if (i <? gr t) && (j <? gc t) then Ok (set_txt p (Some (gset t i j s))) else Ok p | None => Ok p end.
  Fixpoint chars_row (namecol : option nat) (addnames : bool) (row j sh : nat) (cols : list string) (vals : list (option string)) (p : page num) : res (page num) :=
    match cols, vals with
    | c :: cr, v :: r =>
        if is_col namecol j then chars_row namecol addnames row (S j) (S sh) cr r (set_nms p (fst (name_add (nms p) v "r")))
        else
          do q <- match (match v with Some s => Some s | None => nan_string end) with
            | Some s => text_set p row (j - sh) s
            (* a NULL format: the nan_string, NULL here, is printed *)
            | None => text_set p row (j - sh) "(null)" end;
          chars_row namecol addnames row (S j) sh cr r (if addnames then set_nms q (add1 (nms q) c "t") else q)
    | _, _ => Ok p
    end.
  (** 176-204 *)
  Fixpoint chars_rows (cols : list string) (namecol : option nat) (rows : list (list (option string))) (p : page num) : res (page num) :=
    match rows with
    | [] => Ok p
    | v :: r =>
        let row := tsz1 p in
        do t <- text_resize (txt p) (S row) (length cols - (match namecol with Some _ => 1 | None => 0 end));
        do q <- chars_row namecol (length (txtn (nms p)) =? 0) row 0 0 cols v (set_txt p t);
        chars_rows cols namecol r q
    end.
  (** 206-216: apop_query_to_text *)
  Definition query_to_text (a : answer) : res (option (page num)) :=
    do p <- chars_rows (acols a) (find_column 0 (acols a)) (arows a) blank;
    if afail a then Ok (Some (set_err p (Some "q"%char)))
    else Ok (if tsz1 p =? 0 then None else Some p).

  (** 228-239: the letters *)
  Inductive kind := KName | KVec | KMat | KText | KWeight | KOther.
  Definition kind_of (c : ascii) : kind :=
    match c with
    | "n" | "N" => KName | "v" | "V" => KVec | "m" | "M" => KMat | "t" | "T" => KText | "w" | "W" => KWeight | _ => KOther
    end%char.
  Definition kind_eqb (a b : kind) : bool :=
    match a, b with KName, KName | KVec, KVec | KMat, KMat | KText, KText | KWeight, KWeight | KOther, KOther => true | _, _ => false end.
  Definition count_kind (k : kind) (ks : list kind) : nat := length (List.filter (kind_eqb k) ks).
  Definition requested (ks : list kind) : nat := count_kind KName ks + count_kind KVec ks + count_kind KMat ks + count_kind KText ks + count_kind KWeight ks.
  (** 283, 289: atof, NULL is NaN *)
  Definition mixed_value (v : option string) : num := match v with Some s => atof s | None => None end.
  Definition or_nan (v : option string) : string := match v with Some s => s | None => "NaN"%string end.
  (** apop_vector_realloc, apop_matrix_realloc to [n] rows (MemModel, C14) *)
  Definition vec_to (v : list num) (n : nat) : list num := take n v ++ replicate (n - length v) g.
  Definition mat_to (m : grid num) (n : nat) : grid num := Gr n (gc m) (take n (ga m) ++ replicate (n - gr m) (replicate (gc m) g)).
  (** a text grid being made: a cell never written is [None] *)
  Notation tgrid := (list (list (option string))).
  Record mixed := Mx { xpage : page num; xtext : option tgrid }.
  (** 281-309: the columns of a row.  The letters are read by position, the end of the string once; beyond that it is read outside.  273-277, 296: text beyond the columns counted would be written outside. *)
  Fixpoint mixed_row (addnames : bool) (row : nat) (ks : list (option kind)) (cols : list string) (vals : list (option string)) (mcol tcol : nat) (x : mixed) : res mixed :=
    match cols, vals with
    | c :: cr, v :: r =>
        match ks with
        | [] => UB
        | k :: kr =>
            let p := xpage x in
            let named (q : page num) t := if addnames then set_nms q (add1 (nms q) c t) else q in
            match k with
            | Some KName =>
                let q := set_nms p (add1 (nms p) (or_nan v) "r") in
                mixed_row addnames row kr cr r mcol tcol (Mx (named q "h"%char) (xtext x))
            | Some KVec =>
                match vect p with
                | Some w => let q := set_vec p (Some (vec_to w (S row))) in
                    mixed_row addnames row kr cr r mcol tcol (Mx (named (fst (set_at q (Z.of_nat row) (-1) (mixed_value v))) "v"%char) (xtext x))
                | None => UB end
            | Some KMat => mixed_row addnames row kr cr r (S mcol) tcol (Mx (named (fst (set_at p (Z.of_nat row) (Z.of_nat mcol) (mixed_value v))) "c"%char) (xtext x))
            | Some KText =>
                match xtext x with
                | Some t => match t !! row with
                    | Some l => if tcol <? length l then mixed_row addnames row kr cr r mcol (S tcol) (Mx (named p "t"%char) (Some (<[row := <[tcol := Some (or_nan v)]> l]> t))) else UB
                    | None => UB end
                | None => UB end
            | Some KWeight =>
                match wts p with
                | Some w => mixed_row addnames row kr cr r mcol tcol (Mx (set_wts p (Some (<[row := mixed_value v]> (vec_to w (S row))))) (xtext x))
                | None => UB end
            | Some KOther | None => mixed_row addnames row kr cr r mcol tcol x
            end
        end
    | _, _ => Ok x
    end.
  Definition no_names (n : names) : bool := (length (coln n) =? 0) && (length (txtn n) =? 0) && (match vecn n with None => true | Some _ => false end).
  (** 255-271 *)
  Definition mixed_start (ks : list kind) : mixed :=
    let p := if count_kind KMat ks =? 0 then data_alloc_filled g (count_kind KVec ks) 0 0 else data_alloc_filled g (count_kind KVec ks) 1 (Z.of_nat (count_kind KMat ks)) in
    Mx (if count_kind KWeight ks =? 0 then p else set_wts p (Some [g])) (if count_kind KText ks =? 0 then None else Some []).
  (** 245-313: the result and whether there was a dimension error, which ends the query *)
  Fixpoint mixed_rows (ks : list kind) (cols : list string) (row : nat) (rows : list (list (option string))) (x : option mixed) : res (option mixed * bool) :=
    match rows with
    | [] => Ok (x, false)
    | v :: r =>
        let x := match x with Some x => x | None => mixed_start ks end in
        let p := match mat (xpage x) with Some m => if count_kind KMat ks =? 0 then xpage x else set_mat (xpage x) (Some (mat_to m (S row))) | None => xpage x end in
        let t := match xtext x with Some t => Some (t ++ [replicate (count_kind KText ks) None]) | None => None end in
        do y <- mixed_row (no_names (nms p)) row (map Some ks ++ [None]) cols v 0 0 (Mx p t);
        if length cols =? requested ks then mixed_rows ks cols (S row) r (Some y) else Ok (Some y, true)
    end.
  (** the text as a grid, if every cell was written (one that was not is a wild pointer: 325, 328 return it all the same) *)
  Definition text_of (w : nat) (t : option tgrid) : res (option (grid string)) :=
    match t with
    | None => Ok None
    | Some t => do l <- all_res (map (fun r => all_res (map (fun c => match c with Some s => Ok s | None => UB end) r)) t); Ok (Some (Gr (length t) w l))
    end.
  (** 316-329: apop_query_to_mixed_data *)
  Definition query_to_mixed (types : string) (a : answer) : res (option (page num)) :=
    let ks := map kind_of (list_ascii_of_string types) in
    do (x, bad) <- mixed_rows ks (acols a) 0 (arows a) None;
    do out <- match x with None => Ok None | Some x => do t <- text_of (count_kind KText ks) (xtext x); Ok (Some (set_txt (xpage x) t)) end;
    if bad then match out with Some p => Ok (Some (set_err p (Some "d"%char))) | None => UB end
    else Ok (if afail a then Some (set_err (match out with Some q => q | None => blank end) (Some "q"%char)) else out).
End queries.

(** ---------- data to tables ---------- *)
(** a value in a table *)
Inductive dbv := DNull | DNum (x : R) | DText (s : string).
Record table := Tb { tcols : list string; tdata_ : list (list dbv) }.
Section to_db.
  Context (nan_string : option string) (name_column : option string) (show_n : nat -> string).
  Definition rowct (p : page num) : nat := length (rown (nms p)).
  (** apop_db.m4.c:559-561 *)
  Definition use_row (p : page num) : bool :=
    match name_column with Some s => 0 <? String.length s | None => false end &&
    ((match mat p with Some m => rowct p =? gr m | None => false end) || (match vect p with Some v => rowct p =? length v | None => false end)).
  (** 601-627: the columns of the new table *)
  Definition table_columns (p : page num) : list string :=
    (if use_row p then match name_column with Some s => [s] | None => [] end else []) ++
    (match vect p with Some _ => [match vecn (nms p) with Some s => s | None => "vector"%string end] | None => [] end) ++
    (map (fun i => match coln (nms p) !! i with Some s => s | None => ("c" ++ show_n i)%string end) (seq 0 (msz2 p))) ++
    (map (fun i => match txtn (nms p) !! i with Some s => s | None => ("tc" ++ show_n i)%string end) (seq 0 (tsz2 p))) ++
    (match wts p with Some _ => ["weights"%string] | None => [] end).
  (** 631 *)
  Definition col_ct (p : page num) : nat :=
    (if rowct p =? 0 then 0 else 1) + tsz2 p + msz2 p + (match vect p with Some _ => 1 | None => 0 end) + (match wts p with Some _ => 1 | None => 0 end).
  (** sqlite3_bind: field numbers start from 1; out of range is an error *)
  Definition bind (b : list dbv) (field : nat) (v : dbv) : option (list dbv) :=
    if (1 <=? field) && (field <=? length b) then Some (<[field - 1 := v]> b) else None.
  Definition of_num (x : num) : dbv := match x with Some r => DNum r | None => DNull end.
  (** the values of a row, in order; [None]: a field left NULL *)
  Fixpoint bind_all (b : list dbv) (field : nat) (l : list (option dbv)) : option (list dbv) :=
    match l with
    | [] => Some b
    | None :: r => bind_all b (S field) r
    | Some v :: r => match bind b field v with Some b' => bind_all b' (S field) r | None => None end
    end.
  Definition skip_text (s : string) : bool := (String.length s =? 0) || match nan_string with Some n => ci_eq n s | None => false end.
  (** 510-538: what is bound for row [i].  514: after an empty name a field is left out, but the name is bound in the next one. *)
  Definition row_fields (p : page num) (i : nat) : list (option dbv) :=
    (match rown (nms p) !! i with Some s => (if String.length s =? 0 then [None] else []) ++ [Some (DText s)] | None => [] end) ++
    (match vect p with Some v => match v !! i with Some x => [Some (of_num x)] | None => [] end | None => [] end) ++
    (match mat p with Some m => match ga m !! i with Some r => map (fun x => Some (of_num x)) r | None => [] end | None => [] end) ++
    (match txt p with Some t => match ga t !! i with Some r => map (fun s => if skip_text s then None else Some (DText s)) r | None => [] end | None => [] end) ++
    (match wts p with Some w => match w !! i with Some x => [Some (of_num x)] | None => [] end | None => [] end).
  (** 505-549: rows from [i] on; the rows inserted, and whether it went well *)
  Fixpoint insert_rows (p : page num) (n i : nat) (acc : list (list dbv)) : list (list dbv) * bool :=
    match n with
    | 0 => (acc, true)
    | S n' => match bind_all (replicate (col_ct p) DNull) 1 (row_fields p i) with Some b => insert_rows p n' (S i) (acc ++ [b]) | None => (acc, false) end
    end.
  (** 554-668 with SQLite and at most 999 columns: the table afterwards and whether 0 (not -1) is returned.  A table without columns cannot be created (594); a statement with another number of values than
      the table has columns cannot be prepared (633). *)
  Definition data_to_db (old : option table) (p : page num) : option table * bool :=
    let t := match old with
      | Some t => Some t
      | None => match table_columns p with [] => None | cs => Some (Tb cs []) end end in
    if col_ct p =? 0 then (t, false)
    else match t with
      | None => (None, false)
      | Some t => if col_ct p =? length (tcols t) then let '(rows, ok) := insert_rows p (maxsize p) 0 (tdata_ t) in (Some (Tb (tcols t) rows), ok) else (Some t, false)
      end.
  (** select * : the texts SQLite makes of the values *)
  Definition select_all (show : R -> string) (t : table) : answer :=
    An (tcols t) (map (map (fun v => match v with DNull => None | DNum x => Some (show x) | DText s => Some s end)) (tdata_ t)) false.
End to_db.
(** ---------- text to SQL ---------- *)
Section prep.
  (** strtod: is the text a number, and which *)
  Inductive parsed := NotNumber | PosInf | NegInf | ANaN | Finite.
  Context (nan_string : option string) (strtod : string -> parsed).
  Local Open Scope string_scope.
  Definition quote (q : string) (s : string) : string := (q ++ s ++ q)%string.
  Definition has_char (c : ascii) (s : string) : bool := existsb (fun x => (x =? c)%char) (list_ascii_of_string s).
  (** apop_conversions.m4.c:985-1017, prep_string_for_sqlite *)
  Definition prep_string (prepared : bool) (s : string) : option string :=
    if (String.length s =? 0)%nat || match nan_string with Some n => ci_eq n s | None => false end then None
    else match strtod s with
      | NotNumber => Some (if prepared then s else if has_char "'" s then quote """" s else quote "'" s)
      | PosInf => Some "9e9999999"
      | NegInf => Some "-9e9999999"
      | ANaN => Some "0.0/0.0"
      | Finite => Some (match s with String "."%char _ => ("0" ++ s)%string | _ => s end)
      end.
End prep.
