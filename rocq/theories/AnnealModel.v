(** Model of the search by simulated annealing, apop_mle.m4.c:755-881, with GSL's gsl_siman_solve (GSL 1.16 and 2.x), which copies the whole infostruct.  The evaluation is negshell of
    SearchModel.v with use_constraint off (851); one step is annealing_step of DiffModel.v. *)
From Coq Require Import Reals.
From Verif Require Import Base DataModel SearchModel DiffModel.
Local Open Scope string_scope.
Local Open Scope list_scope.
Local Open Scope nat_scope.

(** what each copy of the infostruct has of its own (808-813, annealing_memcpy): the vector beta, want_info, best_ll *)
Record pos := Po { po_beta : list R; po_info : bool; po_best : xr }.
(** what the copies share: the model's parameters, the path.  [sd_log]: the points at which the likelihood has been evaluated so far (not in the code: for the statements) *)
Record shared := Sd { sd_par : params; sd_path : option (list (list R * xr)); sd_log : list (list R) }.

Section anneal.
  Context (m : mdl).
  (** the settings used (836-843), the numbers that the RNG gives in turn, GSL's boltzmann (whether, given E, the new E, the temperature and a uniform draw, the step is taken all the same) *)
  Context (iters : nat) (step_size t_initial mu_t t_min : R) (U : nat -> R) (accept : xr -> xr -> R -> R -> bool) (scale : list R).

  (** 757-760, annealing_energy *)
  Definition energy (x : pos) (g : shared) : res ((xr * pos * shared) + shared) :=
    do e <- negshell m false (po_beta x) (Sh (sd_par g) (sd_path g) (po_info x) (po_best x));
    Ok (match e with
        | Val out b s => inl (out, Po b (s_info s) (s_best s), Sd (s_par s) (s_path s) (sd_log g ++ [po_beta x]))
        | Jump s => inr (Sd (s_par s) (s_path s) (sd_log g ++ [po_beta x]))
        end).
  (** 771-775, annealing_check_constraint *)
  Definition check_constraint (b : list R) (g : shared) : list R * shared :=
    let p := unpack b (sd_par g) in
    match m_con m with
    | Some c => let '(pen, p) := c p in (if truthy pen then pack p else b, Sd p (sd_path g) (sd_log g))
    | None => (b, Sd p (sd_path g) (sd_log g))
    end.
  (** 777-799, annealing_step: the numbers used are those from number [k] on *)
  Definition take_step (x : pos) (k : nat) (g : shared) : pos * nat * shared :=
    let n := length (po_beta x) in
    let b := annealing_step (po_beta x) scale (map U (seq k (n - 1))) (map U (seq (k + (n - 1)) n)) step_size in
    let '(b, g) := check_constraint b g in
    (Po b (po_info x) (po_best x), k + (n - 1) + n, g).

  (** the state of gsl_siman_solve: x with its energy, best_x with its energy, the RNG *)
  Record siman := Si { si_x : pos; si_E : xr; si_best : pos; si_bE : xr; si_k : nat; si_g : shared }.
  (** C's < and <= for numbers that are not NaN (negshell jumps for NaN) *)
  Definition xlt (a b : xr) : bool := xgt b a.
  Definition xle (a b : xr) : bool := negb (xgt a b).
  (** gsl_siman_solve, one move at temperature [T] *)
  Definition move (T : R) (s : siman) : res (siman + shared) :=
    let '(new, k, g) := take_step (si_x s) (si_k s) (si_g s) in
    do r <- energy new g;
    match r with
    | inr g => Ok (inr g)
    | inl (nE, new, g) =>
      let '(best, bE) := if xle nE (si_bE s) then (new, nE) else (si_best s, si_bE s) in
      if xlt nE (si_E s) then
        let '(best, bE) := if xlt nE bE then (new, nE) else (best, bE) in Ok (inl (Si new nE best bE k g))
      else if accept (si_E s) nE T (U k) then Ok (inl (Si new nE best bE (S k) g))
      else Ok (inl (Si (si_x s) (si_E s) best bE (S k) g))
    end.
  (** how it may end: done; a bad evaluation (the jump of negshell, to 856); the signal SIGINT (the jump to 860) *)
  Inductive outcome := Done (s : siman) | BadEval (g : shared) | Signal (g : shared).
  (** the moves at one temperature.  [sig]: SIGINT comes before that many more moves are made; only between moves here *)
  Fixpoint moves (n : nat) (T : R) (sig : option nat) (s : siman) : res (outcome * option nat) :=
    match n with
    | O => Ok (Done s, sig)
    | S n =>
      match sig with
      | Some O => Ok (Signal (si_g s), sig)
      | _ => do r <- move T s;
             match r with inr g => Ok (BadEval g, sig) | inl s => moves n T (option_map pred sig) s end
      end
    end.
  (** the cooling schedule *)
  Fixpoint cool (fuel : nat) (T : R) (sig : option nat) (s : siman) : res outcome :=
    match fuel with
    | O => Fuel
    | S fuel =>
      do (o, sig) <- moves iters T sig s;
      match o with
      | Done s => let T := (T * (1 / mu_t))%R in if Rlt_dec T t_min then Ok (Done s) else cool fuel T sig s
      | o => Ok o
      end
    end.
  (** gsl_siman_solve: the infostruct given, after it; with [None] it is as it was after the first evaluation *)
  Definition siman_solve (fuel : nat) (sig : option nat) (x0 : pos) (g : shared) : res (pos * outcome) :=
    do r <- energy x0 g;
    match r with
    | inr g => Ok (x0, BadEval g)
    | inl (E, x0, g) => do o <- cool fuel t_initial sig (Si x0 E x0 E 0 g); Ok (match o with Done s => si_best s | _ => x0 end, o)
    end.
  Definition out_shared (o : outcome) : shared := match o with Done s => si_g s | BadEval g => g | Signal g => g end.
End anneal.

(** 832-881, apop_annealing, called with the parameters' shape of [p0] and i->beta = [start].  The parameter tests of 876 are not modelled. *)
Definition apop_annealing (m : mdl) (iters : nat) (step_size t_initial mu_t t_min : R) (U : nat -> R) (accept : xr -> xr -> R -> R -> bool) (fuel : nat) (sig : option nat) (cov : params -> params)
    (want : option parts) (n : option nat) (path : bool) (p0 : params) (start : list R) : res (outcome * params * list (string * xr)) :=
  let scale := map set_start start in
  let '(b, g) := check_constraint m start (Sd p0 (if path then Some [] else None) []) in
  do (i, o) <- siman_solve m iters step_size t_initial mu_t t_min U accept scale fuel sig (Po b (want_info want) (Fin 0)) g;
  let g := out_shared o in
  let par := match o with BadEval _ => sd_par g | _ => unpack (po_beta i) (sd_par g) end in
  do (p, rows) <- auxinfo m cov want n (Some (po_beta i)) (match o with BadEval _ => -1 | _ => 0 end)%Z (po_best i) (Sh par (sd_path g) (po_info i) (po_best i));
  Ok (o, p, rows).
