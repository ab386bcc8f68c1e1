(** Model of the numerical derivatives of apop_mle.m4.c:78-265 and of the annealing step (771-827).  Doubles are reals; likelihood values are
    finite.  The parameters are the vector of apop_data_pack order (C20). *)
From Coq Require Import Reals.
From Verif Require Import Base DataModel.
Local Open Scope list_scope.
Local Open Scope R_scope.

(** a function of one number that also changes the model's parameters (the state) *)
Definition stateful : Type := R -> list R -> R * list R.

Section diff.
  (** GSL's gsl_deriv_central, of GSL 1.x and 2.x: the five-point rule with step h (points x-h, x+h, x-h/2, x+h/2); depending on the error estimates,
      which are not modelled, again with another step; then which of the two results is taken *)
  Context (retry : R -> R -> R * R * R * R -> option (R * (R -> bool))).
  Definition five_point (F : stateful) (x h : R) (s : list R) : R * (R * R * R * R) * list R :=
    let '(fm1, s) := F (x - h) s in
    let '(fp1, s) := F (x + h) s in
    let '(fmh, s) := F (x - h / 2) s in
    let '(fph, s) := F (x + h / 2) s in
    ((4 / 3 * (fph - fmh) - 1 / 3 * (1 / 2 * (fp1 - fm1))) / h, (fm1, fp1, fmh, fph), s).
  Definition central (F : stateful) (x h : R) (s : list R) : R * list R :=
    let '(r0, vals, s) := five_point F x h s in
    match retry x h vals with
    | None => (r0, s)
    | Some (h2, better) => let '(r, _, s) := five_point F x h2 s in (if better r then r else r0, s)
    end.

  (** a likelihood: its value, and the parameters as the call leaves them; a constraint: the penalty and the parameters as it leaves them *)
  Definition lik : Type := list R -> R * list R.
  Definition cons : Type := option (list R -> R * list R).

  (** 78-86, one_d *)
  Definition one_d (f : lik) (c : cons) (beta : list R) (dimension : nat) : stateful := fun b _ =>
    let p := <[dimension := b]> beta in
    let '(penalty, p) := match c with Some c => c p | None => (0, p) end in
    let '(v, p) := f p in (v + penalty, p).
  (** 92-108, apop_internal_numerical_gradient: one dimension after the other from [j] on, always from [beta], the parameters at the beginning; line 101 *)
  Fixpoint gradient_loop (f : lik) (c : cons) (delta : R) (beta : list R) (todo j : nat) (s : list R) : list R * list R :=
    match todo with
    | O => ([], s)
    | S todo => let '(r, s) := central (one_d f c beta j) (nth j beta 0) delta s in
                let '(l, s) := gradient_loop f c delta beta todo (S j) s in (r :: l, s)
    end.
  (** 126-143, apop_numerical_gradient, with parameters [s]: the gradient and the parameters afterwards (they are not put back) *)
  Definition numerical_gradient (f : lik) (c : cons) (delta : R) (s : list R) : list R * list R := gradient_loop f c delta s (length s) 0 s.

  (** 152-170, apop_fn_for_infomatrix: element [k] of the score, from the vtable or numerical *)
  Definition fn_for_infomatrix (f : lik) (c : cons) (score : option (list R -> list R)) (delta : R) (k : nat) : lik := fun p =>
    match score with
    | Some sc => (nth k (sc p) 0, p)
    | None => let '(v, p) := numerical_gradient f c delta p in (nth k v 0, p)
    end.
  (** 187-223, apop_model_hessian: the loop over the rows of 208-218.  The model for which the gradients are taken shares its parameters with the one given (205).
      [acc]: the matrix so far.  [delta]: as given, or that of the settings; the inner one (167) is [d2]. *)
  Fixpoint hessian_loop (f : lik) (c : cons) (score : option (list R -> list R)) (delta d2 : R) (todo k : nat) (acc : nat -> nat -> R) (s : list R) : (nat -> nat -> R) * list R :=
    match todo with
    | O => (acc, s)
    | S todo =>
      let '(ds, s) := numerical_gradient (fn_for_infomatrix f c score d2 k) None delta s in
      let acc := fun a b => acc a b + (if (a =? k)%nat then nth b ds 0 / 2 else 0) + (if (b =? k)%nat then nth a ds 0 / 2 else 0) in
      hessian_loop f c score delta d2 todo (S k) acc s
    end.
  Definition matrix_of (n : nat) (a : nat -> nat -> R) : grid R := Gr n n (map (fun i => map (fun j => a i j) (seq 0 n)) (seq 0 n)).
  Definition hessian (f : lik) (c : cons) (score : option (list R -> list R)) (delta d2 : R) (s : list R) : grid R * list R :=
    let n := length s in
    let '(a, s) := hessian_loop f c score delta d2 n 0 (fun _ _ => 0) s in (matrix_of n a, s).

  (** 239-265, apop_model_numerical_covariance: the matrix returned, the page of covariances the parameters then have, the parameters.
      [linv]: apop_matrix_inverse.  Inverting fails: NULL is scaled. *)
  Definition numerical_covariance (linv : grid R -> option (grid R)) (f : lik) (c : cons) (score : option (list R -> list R)) (delta d2 : R) (page : option (grid R)) (s : list R)
    : res (grid R * option (grid R) * list R) :=
    let '(h, s) := hessian f c score delta d2 s in
    match linv h with
    | None => UB
    | Some i => let out := Gr (gr i) (gc i) (map (map (fun x => x * -1)) (ga i)) in
                Ok (out, Some (match page with Some p => p | None => out end), s)
    end.
End diff.

(** 777-800, annealing_step, before the constraint: [u] the numbers drawn for the cut points (781-784), [v] those for the signs *)
Definition cutpoints (u : list R) : list R := 0 :: u ++ [1].
Fixpoint step_loop (j : nat) (beta scale cut v : list R) (step_size : R) : list R :=
  match beta with
  | [] => []
  | b :: beta =>
    let sign := if Rlt_dec (1 / 2) (nth j v 0) then 1 else -1 in
    let amt := nth (S j) cut 0 - nth j cut 0 in
    (b + amt * sign * nth j scale 0 * step_size) :: step_loop (S j) beta scale cut v step_size
  end.
Definition annealing_step (beta scale u v : list R) (step_size : R) : list R := step_loop 0 beta scale (cutpoints u) v step_size.
(** 762-769, annealing_distance: the Manhattan metric after dividing by the scale *)
Definition annealing_distance (scale a b : list R) : R := fold_right Rplus 0 (map (fun j => Rabs (nth j a 0 / nth j scale 0 - nth j b 0 / nth j scale 0)) (seq 0 (length a))).
(** 827, set_start: the scaling factors *)
Definition set_start (x : R) : R := if Req_EM_T x 0 then 1 else x.
