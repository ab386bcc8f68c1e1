(** Model of model/apop_kerneld.c, kernel density estimates.  The kernel is one model, shared by all the points of the base data (and by everyone the user has given it to): its parameters are a state
    that set_fn writes before each evaluation.  Doubles are reals, with infinities and NaN.  What the base PMF's draw gives for a row is taken to be the row (C23 has how it fails with a vector and a
    matrix). *)
From Coq Require Import Reals.
From Verif Require Import Base SearchModel PmfModel.
Local Open Scope list_scope.
Local Open Scope R_scope.

Definition xexp (a : xr) : xr := match a with Fin x => Fin (exp x) | PInf => PInf | NInf => Fin 0 | NaN => NaN end.
Section kde.
  Context {D X P : Type}.
  (** apop_kernel_density_settings, with what is used of the base PMF (its rows and its weights) and of the kernel (log likelihood, cdf, draw for a state of the generator) *)
  Record kde := Kd { k_rows : list D; k_wts : option (list R); k_set : D -> P -> P; k_ll : P -> X -> xr; k_cdf : P -> X -> R; k_draw : P -> R -> X }.

  (** 128: getwt *)
  Definition getwt (k : kde) (i : nat) : R := match k_wts k with Some w => nth i w 0 | None => 1 end.
  (** 102, 137: apop_sum of the weights, or the number of rows *)
  Definition weight (k : kde) : R := match k_wts k with Some w => fold_left Rplus w 0 | None => INR (length (k_rows k)) end.
  (** 93, 128: a weight for each row, or reads outside the vector *)
  Definition wts_ok (k : kde) : bool := match k_wts k with Some w => (length (k_rows k) <=? length w)%nat | None => true end.

  (** 115-122: for each row of the base data set the kernel's parameters, then evaluate; the log likelihoods and the kernel as it is left *)
  Definition row_lls (k : kde) (x : X) (p : P) : list xr * P :=
    fold_left (fun '(lls, p) r => let p := k_set k r p in (lls ++ [k_ll k p x], p)) (k_rows k) ([], p).
  (** 127-135: the rest of the work for one observation.  Some l: to be added to the sum; None: the sum is set to minus infinity *)
  Definition point_ll (k : kde) (lls : list xr) : option xr :=
    let max_ll := fold_left (fun m l => if xgt l m then l else m) lls NInf in
    match max_ll with
    | NInf => None
    | _ => let terms := map (fun '(i, l) => xscale (getwt k i) (xexp (xsub l max_ll))) (combine (seq 0 (length lls)) lls) in
           Some (xadd max_ll (xlog (fold_left xadd terms (Fin 0))))
    end.
  (** 112-136 *)
  Definition ll_loop (k : kde) (d : list X) (st : xr * P) : xr * P :=
    fold_left (fun '(ll, p) x =>
      let '(lls, p) := row_lls k x p in
      (match point_ll k lls with None => NInf | Some l => xadd ll l end, p)) d st.
  (** 104-139 *)
  Definition kernel_ll (k : kde) (d : list X) (p : P) : res (xr * P) :=
    if wts_ok k then let '(ll, p) := ll_loop k d (Fin 0, p) in Ok (xsub ll (xscale (INR (length d)) (xlog (Fin (weight k)))), p) else UB.

  (** 84-102 *)
  Definition kernel_cdf (k : kde) (x : X) (p : P) : res (xr * P) :=
    if wts_ok k then
      let '(t, p) := fold_left (fun '(t, p) '(i, r) => let p := k_set k r p in (t + k_cdf k p x * getwt k i, p)) (combine (seq 0 (length (k_rows k))) (k_rows k)) (0, p) in
      Ok (xquot t (weight k), p)
    else UB.

  (** 144-156; [u]: the uniform draw for the row, [g]: the state for the kernel's own draw.  None: 1 is returned *)
  Definition kernel_draw (fuel : nat) (k : kde) (u g : R) (p : P) : res (option X * P) :=
    do i <- match k_wts k with Some w => pmf_draw fuel w u | None => Ok (Some (pmf_draw_unweighted (length (k_rows k)) u)) end;
    match i with
    | None => Ok (None, p)
    | Some i => match k_rows k !! i with
                | None => UB
                | Some r => let p := k_set k r p in Ok (Some (k_draw k p g), p)
                end
    end.

  (** Threads.  The accesses to the kernel's parameters that a thread makes: in kernel_ll and kernel_cdf setting them and evaluating is one critical section (93-97, 117-121); in kernel_draw (150,
      152) they are two steps. *)
  Inductive step := Crit (r : D) (x : X) | Set_ (r : D) | Draw (g : R).
  Inductive out := Val (v : xr) | Drawn (x : X).
  (** one step of thread [t], by whom the trace lists it; what each thread has seen so far, newest last *)
  Definition run_step (k : kde) (st : P * list (nat * out)) (e : nat * step) : P * list (nat * out) :=
    let '(p, o) := st in let '(t, s) := e in
    match s with
    | Crit r x => let p := k_set k r p in (p, o ++ [(t, Val (k_ll k p x))])
    | Set_ r => (k_set k r p, o)
    | Draw g => (p, o ++ [(t, Drawn (k_draw k p g))])
    end.
  Definition run (k : kde) (trace : list (nat * step)) (p : P) : P * list (nat * out) := fold_left (run_step k) trace (p, []).
End kde.
Arguments kde : clear implicits.
Arguments step : clear implicits.
Arguments out : clear implicits.

(** 52-54, apop_set_first_param, for a parameter vector that is not empty *)
Definition set_first (r : R) (p : list R) : list R := match p with [] => [] | _ :: p => r :: p end.

(** Who frees what: the models a settings group points to, as memory blocks; [live]: those allocated. *)
Record owned := Ow { o_pmf : nat; own_pmf : bool; o_kernel : nat; own_kernel : bool }.
Definition mfree (live : list nat) (b : nat) : res (list nat) := if bool_decide (b ∈ live) then Ok (filter (fun x => x <> b) live) else UB.
(** 56-65: a PMF and a kernel are made if the user gives none *)
Definition settings_init (live : list nat) (pmf kernel : option nat) : list nat * owned :=
  let new live := S (fold_right Nat.max 0%nat live) in
  let '(live, bp) := match pmf with Some b => (live, b) | None => (new live :: live, new live) end in
  let '(live, bk) := match kernel with Some b => (live, b) | None => (new live :: live, new live) end in
  (live, Ow bp (match pmf with Some _ => false | None => true end) bk (match kernel with Some _ => false | None => true end)).
(** 67-70 *)
Definition settings_copy (o : owned) : owned := Ow (o_pmf o) false (o_kernel o) false.
(** 72-75 *)
Definition settings_free (live : list nat) (o : owned) : res (list nat) :=
  do live <- if own_pmf o then mfree live (o_pmf o) else Ok live;
  if own_kernel o then mfree live (o_kernel o) else Ok live.
(** any evaluation or draw reads both *)
Definition use (live : list nat) (o : owned) : res unit := if bool_decide (o_pmf o ∈ live /\ o_kernel o ∈ live) then Ok tt else UB.
(** 77-81, with the copy of the settings apop_estimate makes first (apop_model.m4.c:229-235): the base data afterwards *)
Definition kernel_estimate {D} (group : option (list D)) (d : list D) : list D := match group with Some g => g | None => d end.
