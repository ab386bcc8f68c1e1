(** Model of apop_text_to_db after the parsing (C29): apop_conversions.m4.c:943-1202, for SQLite.  A field is a list of bytes without NUL.  What SQLite makes of the text of a value (its column's
    affinity) is not modelled: a cell of the table is NULL or the text it was given.  [sql_values], [sql_columns]: how SQLite reads the text of a statement, as documented. *)
From Coq Require Import Reals.
From Verif Require Import Base NamesModel SearchModel.
Local Open Scope string_scope.
Local Open Scope list_scope.
Local Open Scope nat_scope.

Notation str := (list ascii).
Definition b (s : string) : str := list_ascii_of_string s.
Definition apo : ascii := ascii_of_nat 39.
Definition dqu : ascii := ascii_of_nat 34.
Definition has (c : ascii) (s : str) : bool := existsb (Ascii.eqb c) s.

(** SQLite: a quoted token, after its opening quote [q]: the content and what follows.  A quote doubled is one quote *)
Fixpoint quoted (q : ascii) (s : str) : option (str * str) :=
  match s with
  | [] => None
  | c :: r => if Ascii.eqb c q then
                match r with
                | c' :: r' => if Ascii.eqb c' q then match quoted q r' with Some (t, u) => Some (q :: t, u) | None => None end else Some ([], r)
                | [] => Some ([], [])
                end
              else match quoted q r with Some (t, u) => Some (c :: t, u) | None => None end
  end.
Definition blank (c : ascii) : bool := Ascii.eqb c (ascii_of_nat 32).
Fixpoint skip (s : str) : str := match s with c :: r => if blank c then skip r else s | [] => [] end.
(** a bare token: up to a blank, a comma, a bracket or a quote *)
Definition ends (c : ascii) : bool := blank c || has c [","; "("; ")"; ";"]%char || Ascii.eqb c apo || Ascii.eqb c dqu.
Fixpoint bare (s : str) : str * str := match s with c :: r => if ends c then ([], s) else let '(t, u) := bare r in (c :: t, u) | [] => ([], []) end.
(** values separated by commas, after the opening bracket: the cells, and what follows the closing bracket.  None: a syntax error.  A token in double quotes is a string, as no column's name can be
    meant here *)
Definition sql_value (s : str) : option (option str * str) :=
  match s with
  | c :: r => if Ascii.eqb c apo || Ascii.eqb c dqu then match quoted c r with Some (t, u) => Some (Some t, u) | None => None end
              else let '(t, u) := bare s in
                   if (length t =? 0) then None else Some (if bool_decide (t = b "NULL") then None else Some t, u)
  | [] => None
  end.
Fixpoint sql_values (fuel : nat) (s : str) : option (list (option str) * str) :=
  match fuel with
  | 0 => None
  | S fuel =>
    match sql_value (skip s) with
    | None => None
    | Some (v, u) => match skip u with
                     | c :: r => if Ascii.eqb c ","%char then match sql_values fuel r with Some (vs, u) => Some (v :: vs, u) | None => None end
                                 else if Ascii.eqb c ")"%char then Some ([v], r) else None
                     | [] => None
                     end
    end
  end.
(** column definitions: a name in single quotes, then a type or constraint (here without quotes, commas and brackets), separated by commas *)
Fixpoint upto (s : str) : str := match s with c :: r => if has c [","; ")"]%char || Ascii.eqb c apo || Ascii.eqb c dqu then s else upto r | [] => [] end.
Fixpoint sql_columns (fuel : nat) (s : str) : option (list str * str) :=
  match fuel with
  | 0 => None
  | S fuel =>
    match skip s with
    | c :: r => if Ascii.eqb c apo then
        match quoted apo r with
        | Some (n, u) => match upto u with
                         | c :: r => if Ascii.eqb c ","%char then match sql_columns fuel r with Some (ns, u) => Some (n :: ns, u) | None => None end
                                     else if Ascii.eqb c ")"%char then Some ([n], r) else None
                         | [] => None
                         end
        | None => None
        end
      else None
    | [] => None
    end
  end.

Record table := Tb { t_cols : list str; t_rows : list (list (option str)) }.
(** SQLite compares names of columns without regard to case *)
Definition ci (s : str) : str := map lower s.

Section load.
  (** strtod: the number that the whole of a string is read as.  None: something of it is left over, or all *)
  Context (strtod : str -> option xr).
  (** apop_opts.nan_string *)
  Context (nan_string : option str).
  (** 990-1019, prep_string_for_sqlite, for a string *)
  Definition prep (prepped : bool) (s : str) : option str :=
    if (length s =? 0) || match nan_string with Some n => bool_decide (ci n = ci s) | None => false end then None
    else match strtod s with
         | None => Some (if prepped then s else if has apo s then [dqu] ++ s ++ [dqu] else [apo] ++ s ++ [apo])
         | Some PInf => Some (b "9e9999999")
         | Some NInf => Some (b "-9e9999999")
         | Some NaN => Some (b "0.0/0.0")
         | Some (Fin _) => Some (match s with c :: _ => if Ascii.eqb c "."%char then "0"%char :: s else s | [] => s end)
         end.
  (** 1028-1041, 1181-1188 with a prepared statement of [k] blanks: binding beyond the last is refused, and the loop goes on; blanks not bound are NULL (1187, and the first time round) *)
  Definition insert_prepared (k : nat) (line : list str) : list (option str) :=
    fold_left (fun row '(j, f) => match prep true f with Some v => if (length v =? 0) then row else <[j := Some v]> row | None => row end) (combine (seq 0 (length line)) line) (replicate k None).
  (** 1027-1045 without: the text of the query *)
  Definition insert_text (tab : str) (line : list str) : str :=
    b "INSERT INTO " ++ tab ++ b " VALUES (" ++
    fst (fold_left (fun '(q, comma) f => (q ++ [comma; " "%char] ++ match prep false f with Some v => if (length v =? 0) then b " NULL" else v | None => b " NULL" end, ","%char)) line ([], " "%char)) ++ b ")".
  (** what SQLite does with such a query: the rows added; what follows the closing bracket is executed if it begins with a semicolon.  The values must be as many as the columns *)
  Definition exec_insert (tab : str) (k : nat) (q : str) : list (list (option str)) * str :=
    let head := b "INSERT INTO " ++ tab ++ b " VALUES (" in
    match sql_values (S (length q)) (drop (length head) q) with
    | Some (vs, u) => if (length vs =? k) then match u with [] => ([vs], []) | c :: r => if Ascii.eqb c ";"%char then ([vs], r) else ([], []) end else ([], [])
    | None => ([], [])
    end.

  (** 943-949, get_field_conditions, for the field's name *)
  Context (cond : str -> str).
  (** 968-979, tab_create_sqlite without table_params: the text of the query *)
  Definition create_text (tab : str) (row_names : bool) (fn : list str) : str :=
    let q := fold_left (fun q i =>
      let q := if (i =? 0) then (if row_names then q ++ b " ('row_names', " else q ++ b " (") else q ++ b "' " ++ cond (nth (i - 1) fn []) ++ b ", " in
      q ++ b " '" ++ nth i fn []) (seq 0 (length fn)) (b "create table " ++ tab) in
    q ++ b "' " ++ cond (nth (length fn - 1) fn []) ++ b ");".
  (** what SQLite does with it: a new table, if the text can be read to its end and no name comes twice *)
  Definition exec_create (tab : str) (q : str) : option table :=
    match sql_columns (S (length q)) (drop (length (b "create table " ++ tab ++ b " (")) q) with
    | Some (ns, u) => if bool_decide (u = b ";") && bool_decide (NoDup (map ci ns)) then Some (Tb ns []) else None
    | None => None
    end.
  (** 588-602, get_field_names: the names of the columns, given the file's top line if it is to be taken for names *)
  Inductive naming := FromFile (top : list str) | FromUser (names : list str) | Numbered.
  Definition field_names (decimal : nat -> str) (nm : naming) (first : list str) : res (list str) :=
    match nm with
    | FromFile top => Ok top
    | FromUser l => if (length first <=? length l) then Ok (take (length first) l) else UB
    | Numbered => Ok (map (fun i => b "col_" ++ decimal i) (seq 0 (length first)))
    end.

  (** 1142-1202: the table afterwards, and whether the return value is not -1.  [old]: the table of that name, if there is one; [lines]: what C29 says is read (at least one line, of at least one
      field).  A query that fails leaves the table (sqlite3_exec). *)
  Definition load (decimal : nat -> str) (old : option table) (if_exists : ascii) (tab : str) (row_names : bool) (nm : naming) (lines : list (list str)) : res (option table * bool) :=
    if match old with Some _ => Ascii.eqb if_exists "n"%char | None => false end then Ok (old, false) else
    let t := match old with
             | Some t => if Ascii.eqb if_exists "d"%char then Some (Tb (t_cols t) []) else if Ascii.eqb if_exists "o"%char then None else Some t
             | None => None
             end in
    match lines with
    | [] => UB
    | first :: _ =>
      do fn <- field_names decimal nm first;
      let k := length first in
      match (match t with Some t => Some t | None => exec_create tab (create_text tab row_names fn) end) with
      | None => Ok (None, false)
      | Some t =>
        if (k <=? 999) then
          if (length (t_cols t) =? k) then Ok (Some (Tb (t_cols t) (t_rows t ++ map (insert_prepared k) lines)), true) else Ok (Some t, false)
        else Ok (Some (Tb (t_cols t) (t_rows t ++ concat (map (fun l => fst (exec_insert tab (length (t_cols t)) (insert_text tab l))) lines))), true)
      end
    end.
End load.

(** apop_db.m4.c:108-160, apop_table_exists, for SQLite.  The database's objects: kind, name, whether temporary (then listed in another table than sqlite_master).  No two have the same name, whatever the
    case; SQLite finds an object by its name without regard to case.  None: no database is open *)
Inductive okind := OTable | OView | OIndex.
Record dbobj := Ob { o_kind : okind; o_name : str; o_temp : bool }.
Definition okind_eqb (x y : okind) : bool := match x, y with OTable, OTable | OView, OView | OIndex, OIndex => true | _, _ => false end.
(** 146, 147, 108-113 *)
Definition listed (k : okind) (name : str) (db : list dbobj) : bool := existsb (fun o => okind_eqb (o_kind o) k && negb (o_temp o) && bool_decide (o_name o = name)) db.
(** drop table, drop view: an error, and nothing done, if there is no such object of that kind *)
Definition sql_drop (k : okind) (name : str) (db : list dbobj) : list dbobj := List.filter (fun o => negb (okind_eqb (o_kind o) k && bool_decide (ci (o_name o) = ci name))) db.
Definition table_exists (db : option (list dbobj)) (name : str) (remove : bool) : option (list dbobj) * bool :=
  match db with
  | None => (None, false)
  | Some db => let te := listed OTable name db in let tev := listed OView name db in
               (Some (if remove && (te || tev) then if te then sql_drop OTable name db else sql_drop OView name db else db), te || tev)
  end.
