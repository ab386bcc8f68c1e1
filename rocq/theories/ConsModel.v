(** Model of apop_linear_constraint.m4.c.  Doubles are reals.  [UB] also where a division by zero or an arc cosine outside [-1, 1] gives infinity or NaN: the asserts then end the program or the result is meaningless. *)
From Coq Require Import Reals Ratan.
From Verif Require Import DataModel StatsModel LinModel OlsModel.
Local Open Scope list_scope.
Local Open Scope R_scope.

Definition or_ub {A} (x : option A) : res A := match x with Some x => Ok x | None => UB end.
(** gsl_vector_scale and gsl_vector_add; the sizes agree *)
Definition vscale (k : R) (v : list R) : list R := map (fun x => x * k) v.
Definition vadd (a b : list R) : list R := zip_with Rplus a b.
(** 8-12, magnitude: the square of the length *)
Definition magnitude (v : list R) : R := ddot_loop v v 0.
(** 14-26, find_nearest_point *)
Definition find_nearest (v : list R) (k : R) (b : list R) : res (list R) := do s <- or_ub (cdiv (ddot_loop b v 0 - k) (magnitude b)); Ok (vadd (vscale (- s) b) v).
(** 28-32, binds *)
Definition binds (v : list R) (k : R) (b : list R) (margin : R) : bool := bool_of (Rlt_dec (ddot_loop v b 0) (k + margin)).
(** 34-41, trig_bit *)
Definition trig_bit (dimv otherv : list R) (off_by : R) : res R :=
  do c <- or_ub (cdiv (ddot_loop dimv otherv 0) (magnitude dimv * magnitude otherv));
  if Rle_dec (-1) c then if Rle_dec c 1 then or_ub (cdiv off_by (sin (acos c) ^ 2)) else UB else UB.
Definition distance (a b : list R) : res R := or_ub (vector_distance a (Some b) "e" 2).
(** a constraint: the vector and the rows of the matrix *)
Definition constraints := list (R * list R).
(** 60-82, the loop of get_candiate from constraint [i]; the pseudopoint (beta at first) and the candidate *)
Fixpoint candidate_loop (others : constraints) (i current : nat) (cc : list R) (ck margin : R) (pseudo candidate : list R) : res (list R) :=
  match others with
  | [] => Ok candidate
  | (k, other) :: r =>
    if negb (i =? current)%nat && binds candidate k other margin then
      do p1 <- find_nearest pseudo k other;
      do p2 <- find_nearest p1 ck cc;
      do off_by <- distance p1 p2;
      do s <- trig_bit cc other off_by;
      let fix_ := vscale s (vscale (magnitude cc) cc) in
      do c <- find_nearest (vadd pseudo fix_) k other;
      candidate_loop r (S i) current cc ck margin c c
    else candidate_loop r (S i) current cc ck margin pseudo candidate
  end.
(** 51-88, get_candiate *)
Definition get_candidate (beta : list R) (c : constraints) (current : nat) (margin : R) : res (list R) :=
  match c !! current with
  | None => UB
  | Some (ck, cc) => do c0 <- find_nearest beta ck cc; candidate_loop c 0 current cc ck margin beta c0
  end.
(** 138-140: the scratch vector closest_pt kept between calls; [None]: not there; its contents: [None] until it is first set (minus infinity in its first element, so that its distance to any point is infinite) *)
Record scratch := Sc { sc_size : nat; sc_pt : option (list R) }.
(** 171-176: the binding constraints [l], numbered, one after the other *)
Fixpoint best (beta : list R) (c : constraints) (margin : R) (l : list nat) (pt : option (list R)) : res (option (list R)) :=
  match l with
  | [] => Ok pt
  | i :: r => do cand <- get_candidate beta c i margin; do d <- distance beta cand;
              do closer <- match pt with None => Ok true | Some p => do e <- distance beta p; Ok (bool_of (Rlt_dec d e)) end;
              best beta c margin r (if closer then Some cand else pt)
  end.
(** 117-133: the default *)
Definition unit_vec (n i : nat) : list R := map (fun j => if (j =? i)%nat then 1 else 0) (seq 0 n).
Definition default_constraints (n : nat) : constraints := map (fun i => (0, unit_vec n i)) (seq 0 n).
(** 117-191, apop_linear_constraint: the penalty, beta and the scratch afterwards.  beta not empty. *)
Definition linear_constraint (beta : list R) (c : option constraints) (margin : R) (st : option scratch) : res (R * list R * option scratch) :=
  let n := length beta in
  let c := match c with Some c => c | None => default_constraints n end in
  if negb (forallb (fun '(_, r) => (length r =? n)%nat) c) then UB else                      (* sizes agree *)
  let st := match st with Some s => if (sc_size s =? n)%nat then s else Sc n None | None => Sc n None end in
  let bindlist := map (fun '(k, r) => binds beta k r margin) c in
  let bound := filter (fun i => nth i bindlist false = true) (seq 0 (length c)) in
  match bound with
  | [] => Ok (0, beta, Some st)
  | _ =>
    do (new, st') <- match c with
      | [(k, r)] => do x <- find_nearest beta k r; Ok (x, st)
      | _ => do pt <- best beta c margin bound (sc_pt st); do x <- or_ub pt; Ok (x, Sc n (Some x))
      end;
    let new := fold_left (fun b i => match c !! i with Some (_, r) => vadd b (vscale margin (vscale (magnitude r) r)) | None => b end) bound new in
    do out <- distance beta new;
    Ok (out, new, Some st')
  end.
