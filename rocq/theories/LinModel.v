(** Model of apop_dot and apop_vector_bounded (apop_linear_algebra.m4.c).  Doubles are reals (StatsModel.v); GSL's BLAS calls
    are modelled by what they compute. *)
From Coq Require Import Reals.
From Verif Require Import DataModel StatsModel.
Local Open Scope list_scope.
Local Open Scope nat_scope.

(** gsl_blas_ddot (GSL blas/blas.c, cblas/source_dot_r.h): r += X[i]*Y[i] from 0; [None]: GSL_EBADLEN *)
Fixpoint ddot_loop (x y : list R) (r : R) : R :=
  match x, y with a :: x', b :: y' => ddot_loop x' y' (r + a * b)%R | _, _ => r end.
Definition ddot (x y : list R) : option R := if length x =? length y then Some (ddot_loop x y 0%R) else None.
(** gsl_blas_dgemv(flip, 1, m, v, 0, out): each entry of out is the product of a row of m (CblasNoTrans) or of a column of m
    (CblasTrans) with v; [None]: GSL_EBADLEN.  [out] has the length given by dot_for_apop_dot. *)
Definition dgemv (trans : bool) (m : grid R) (v : list R) : option (list R) :=
  let m := if trans then gtranspose m else m in
  if gc m =? length v then Some (map (fun r => ddot_loop r v 0%R) (ga m)) else None.
(** apop_linear_algebra.m4.c:322-330 dot_for_apop_dot *)
Definition dot_for_apop_dot (m : grid R) (v : list R) (flip : bool) : option (list R) := dgemv flip m v.
(** gsl_blas_dgemm(lt, rt, 1, lm, rm, 0, outm); [None]: GSL_EBADLEN *)
Definition dgemm (lt rt : bool) (lm rm : grid R) : option (grid R) :=
  let l := if lt then gtranspose lm else lm in
  let r := if rt then rm else gtranspose rm in                                 (* the columns of the right operand, as rows *)
  if gc l =? gc r then Some (Gr (gr l) (gr r) (map (fun x => map (fun y => ddot_loop x y 0%R) (ga r)) (ga l))) else None.

(** 415-418: form 'p', 't' or 1 *)
Definition is_trans (form : ascii) : bool := (form =? "p")%char || (form =? "t")%char || (form =? "001")%char.
Inductive operand := OMat (m : grid R) | OVec (v : list R).
(** 395-410: which part to use; [None]: return NULL *)
Definition choose (d : page R) (form : ascii) : option operand :=
  match mat d with
  | Some m => if negb (form =? "v")%char then Some (OMat m) else option_map OVec (vect d)
  | None => option_map OVec (vect d)
  end.
(** apop_linear_algebra.m4.c:379-469 apop_dot, d1 and d2 non-NULL; [None]: NULL returned.  Allocations do not fail. *)
Definition apop_dot (d1 d2 : page R) (form1 form2 : ascii) : option (page R) :=
  match choose d1 form1 with
  | None => None
  | Some o1 =>
    match choose d2 form2 with
    | None => None
    | Some o2 =>
      let lt := is_trans form1 in let rt := is_trans form2 in
      let rows (t : bool) (m : grid R) := if t then gc m else gr m in let cols (t : bool) (m : grid R) := if t then gr m else gc m in
      let out : page R := Pg None None None None name_alloc None in
      let failed (c : ascii) : page R := set_err out (Some c) in
      let named (o : page R) :=
        let n := nms o in
        let n := match o1 with OMat _ => if lt then name_stack n (nms d1) "r" "c" else name_stack n (nms d1) "r" "r" | OVec _ => n end in
        let n := match o2 with OMat _ => if rt then name_stack n (nms d2) "c" "r" else name_stack n (nms d2) "c" "c" | OVec _ => n end in
        set_nms o n in
      Some (match o1, o2 with
      | OMat lm, OMat rm =>
        if negb (cols lt lm =? rows rt rm) then failed "d"%char
        else match dgemm lt rt lm rm with None => failed "m"%char | Some m => named (set_mat out (Some m)) end
      | OVec lv, OMat rm =>
        if negb (length lv =? rows rt rm) then failed "d"%char
        else match dot_for_apop_dot rm lv (negb rt) with None => failed "m"%char | Some v => named (set_vec out (Some v)) end
      | OMat lm, OVec rv =>
        if negb (cols lt lm =? length rv) then failed "d"%char
        else match dot_for_apop_dot lm rv lt with None => failed "m"%char | Some v => named (set_vec out (Some v)) end
      | OVec lv, OVec rv =>
        match ddot lv rv with None => failed "m"%char | Some x => named (set_vec out (Some [x])) end
      end)
    end
  end.

(** apop_linear_algebra.m4.c:308-319 apop_vector_bounded.  An element: [None] is NaN or an infinity (gsl_finite false);
    [max = None]: INFINITY, the default. *)
Fixpoint vector_bounded (v : list (option R)) (max : option R) : bool :=
  match v with
  | [] => true
  | x :: v' =>
    match x with
    | None => false
    | Some x => if match max with None => false | Some b => if Rlt_dec b x then true else if Rlt_dec x (- b) then true else false end
                then false else vector_bounded v' max
    end
  end.
