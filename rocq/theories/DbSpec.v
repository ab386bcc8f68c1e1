(** What the query functions should give, in terms of the columns and rows of the query's result. *)
From Coq Require Import Reals.
From Verif Require Import DataModel DbModel.
Local Open Scope list_scope.
Local Open Scope nat_scope.

(** [nc] is the position of the first column whose name is, but for case, apop_opts.db_name_column *)
Definition name_column_at (name_column : option string) (cols : list string) (nc : option nat) : Prop :=
  let is_it c := exists n, name_column = Some n /\ ci_eq c n = true in
  match nc with
  | Some k => (exists c, cols !! k = Some c /\ is_it c) /\ (forall j c, j < k -> cols !! j = Some c -> ~ is_it c)
  | None => forall j c, cols !! j = Some c -> ~ is_it c
  end.
(** a row without the element of the name column *)
Definition without {A} (nc : option nat) (l : list A) : list A := match nc with Some k => take k l ++ drop (S k) l | None => l end.
(** the row names: what the name column has, NULLs left out *)
Definition names_in (nc : option nat) (rows : list (list (option string))) : list string :=
  match nc with Some k => omap (fun r => match r !! k with Some (Some s) => Some s | _ => None end) rows | None => [] end.
(** every row has as many elements as there are columns *)
Definition full_rows (a : answer) : Prop := Forall (fun r => length r = length (acols a)) (arows a).
(** how an element is read as a number *)
Inductive reads (atof : string -> num) (nan_string : option string) : option string -> num -> Prop :=
  | reads_null : reads atof nan_string None None
  | reads_NULL : reads atof nan_string (Some "NULL"%string) None
  | reads_nan n s : nan_string = Some n -> ci_eq n s = true -> reads atof nan_string (Some s) None
  | reads_number s : s <> "NULL"%string -> (forall n, nan_string = Some n -> ci_eq n s = false) -> reads atof nan_string (Some s) (atof s).

(** the elements of a row (or the names) of the columns with letter [k] *)
Fixpoint picks {A} (k : kind) (ks : list kind) (l : list A) : list A :=
  match ks, l with x :: r, a :: l' => if kind_eqb k x then a :: picks k r l' else picks k r l' | _, _ => [] end.
