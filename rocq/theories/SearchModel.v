(** Model of the searches of apop_mle.m4.c: the shell around every evaluation, the iteration loops of the three GSL based
    methods, and what is recorded in the info page.  GSL's minimisers are not modelled: what they do in one iteration (which points they
    evaluate, what they return, where they stand afterwards) is an arbitrary [event].  Doubles are reals with infinities and NaN. *)
From Coq Require Import Reals.
From Verif Require Import DataModel NamesModel.
Local Open Scope string_scope.
Local Open Scope list_scope.
Local Open Scope nat_scope.

Inductive xr := Fin (x : R) | PInf | NInf | NaN.
Definition xneg (a : xr) : xr := match a with Fin x => Fin (- x) | PInf => NInf | NInf => PInf | NaN => NaN end.
Definition xadd (a b : xr) : xr :=
  match a, b with
  | NaN, _ | _, NaN => NaN
  | Fin x, Fin y => Fin (x + y)
  | PInf, NInf | NInf, PInf => NaN
  | PInf, _ | _, PInf => PInf
  | NInf, _ | _, NInf => NInf
  end.
Definition xsub (a b : xr) : xr := xadd a (xneg b).
(** C's log: NaN for a negative argument *)
Definition xlog (a : xr) : xr :=
  match a with
  | Fin x => if Rlt_dec x 0 then NaN else if Rlt_dec 0 x then Fin (ln x) else NInf
  | PInf => PInf | NInf | NaN => NaN
  end.
(** C's > : false if an argument is NaN *)
Definition xgt (a b : xr) : bool :=
  match a, b with
  | NaN, _ | _, NaN => false
  | Fin x, Fin y => if Rlt_dec y x then true else false
  | PInf, PInf => false | PInf, _ => true | _, PInf => false
  | NInf, _ => false | _, NInf => true
  end.
(** GSL_MAX(a, b): ((a) > (b) ? (a) : (b)) *)
Definition xmax (a b : xr) : xr := if xgt a b then a else b.
Definition isnan (a : xr) : bool := match a with NaN => true | _ => false end.
(** if (x): true if x is not zero, so for NaN too *)
Definition truthy (a : xr) : bool := match a with Fin x => if Req_EM_T x 0 then false else true | _ => true end.
Definition xscale (k : R) (a : xr) : xr :=
  match a with
  | Fin x => Fin (k * x)
  | NaN => NaN
  | PInf => if Rlt_dec 0 k then PInf else if Rlt_dec k 0 then NInf else NaN
  | NInf => if Rlt_dec 0 k then NInf else if Rlt_dec k 0 then PInf else NaN
  end.

(** The parameters (an apop_data set): the vector, if any, and the other cells in the order of apop_data_pack (C20 shows that
    packing and unpacking keep every cell).  The pages of the set are not modelled. *)
Record params := Pr { p_vec : option (list R); p_rest : list R }.
Definition vpart (p : params) : list R := match p_vec p with Some v => v | None => [] end.
Definition pack (p : params) : list R := vpart p ++ p_rest p.
(** apop_data_unpack, for a vector as long as the parameters *)
Definition unpack (b : list R) (p : params) : params :=
  match p_vec p with Some v => Pr (Some (take (length v) b)) (drop (length v) b) | None => Pr None b end.

(** what is used of an apop_model: log_likelihood, p, constraint (the penalty and the parameters as it leaves them), for one data set *)
Record mdl := Md { m_ll : option (params -> xr); m_p : option (params -> xr); m_con : option (params -> xr * params) }.

(** apop_model.m4.c:256-265, apop_log_likelihood *)
Definition log_likelihood (m : mdl) (p : params) : xr :=
  match m_ll m, m_p m with Some f, _ => f p | None, Some f => xlog (f p) | None, None => NaN end.

(** the part of infostruct that changes: the model's parameters, the path, want_info, best_ll *)
Record shell := Sh { s_par : params; s_path : option (list (list R * xr)); s_info : bool; s_best : xr }.
(** the result of an evaluation: a value with the vector as it is left, or the jump to bad_eval_jump *)
Inductive eval := Val (out : xr) (beta : list R) (s : shell) | Jump (s : shell).

(** 269-282, tracepath: one row more.  The parameters without vector: NULL is read. *)
Definition tracepath (p : params) (value : xr) (path : list (list R * xr)) : res (list (list R * xr)) :=
  match p_vec p with Some v => Ok (path ++ [(v, value)]) | None => UB end.

Section search.
  Context (m : mdl) (use_con : bool).

  (** 296-330, negshell *)
  Definition negshell (beta : list R) (s : shell) : res eval :=
    match (match m_ll m with Some f => Some f | None => m_p m end) with
    | None => Ok (Jump s)
    | Some f =>
      let p := unpack beta (s_par s) in
      let '(penalty, p) := match m_con m with Some c => if use_con then c p else (Fin 0, p) | None => (Fin 0, p) end in
      let beta := if truthy penalty then pack p else beta in
      let out := xsub penalty (f p) in
      if isnan out then Ok (Jump (Sh p (s_path s) (s_info s) (s_best s)))
      else
        do path <- match s_path s with Some l => do l <- tracepath p (xneg out) l; Ok (Some l) | None => Ok None end;
        if s_info s then
          let this_ll := match m_ll m with Some _ => xneg out | None => xlog (xneg out) end in
          Ok (Val out beta (Sh p path (negb (isnan this_ll)) (xmax (s_best s) this_ll)))
        else Ok (Val out beta (Sh p path false (s_best s)))
    end.

  (** 332-359, dnegshell, as far as it touches the shell: the gradient is computed by [grad], which leaves the model's parameters somewhere
      (apop_internal_numerical_gradient does not put them back); then 356, if there is a path, negshell once more *)
  Definition dnegshell (grad : params -> params) (beta : list R) (s : shell) : res (option shell) :=
    let s := Sh (grad (unpack beta (s_par s))) (s_path s) (s_info s) (s_best s) in
    match s_path s with
    | None => Ok (Some s)
    | Some _ => do e <- negshell beta s; Ok (match e with Val _ _ s => Some s | Jump _ => None end)
    end.

  (** what a minimiser may ask for: the function, the gradient, or both (362-365, fdf_shell) *)
  Inductive request := Ask_f (b : list R) | Ask_df (b : list R) | Ask_fdf (b : list R).
  (** the requests in turn; [inr]: a jump, with the shell at that point *)
  Fixpoint requests (grad : params -> params) (l : list request) (s : shell) : res (shell + shell) :=
    match l with
    | [] => Ok (inl s)
    | r :: l =>
      match r with
      | Ask_f b => do e <- negshell b s; match e with Val _ _ s => requests grad l s | Jump s => Ok (inr s) end
      | Ask_df b => do o <- dnegshell grad b s; match o with Some s => requests grad l s | None => Ok (inr s) end
      | Ask_fdf b =>
          do e <- negshell b s;
          match e with
          | Jump s => Ok (inr s)
          | Val _ b s => do o <- dnegshell grad b s; match o with Some s => requests grad l s | None => Ok (inr s) end
          end
      end
    end.

  (** One iteration of a GSL minimiser or root finder: what it asks for, the status it returns, the status of the test made afterwards,
      where it stands (s->x), and whether SIGINT has come.  GSL_SUCCESS is 0, GSL_CONTINUE is -2. *)
  Record event := Ev { ev_asks : list request; ev_status : Z; ev_test : Z; ev_x : list R; ev_ctrl_c : bool }.
  Definition GSL_SUCCESS : Z := 0.
  Definition GSL_CONTINUE : Z := -2.
  Inductive method := Simplex | Conjugate | Newton.

  (** the end of a loop: the number of iterations, whether a bad evaluation ended it, the last status, the place, the shell *)
  Record ending := En { en_iter : Z; en_bad : bool; en_status : Z; en_x : list R; en_sh : shell }.
  (** 449-464, 496-519 and 899-908: the do-while loop, from iteration [iter] + 1 on.  Simplex: 503 stops at any status but success; conjugate
      gradients: 456 at any but success and continue; root finding: 905.  After 459 the loop ends in any case.  The comparison of 908 is of unsigned numbers; here max_iterations is not negative. *)
  Fixpoint loop (me : method) (grad : params -> params) (max_it : Z) (run : nat -> event) (fuel : nat) (k : nat) (status : Z) (s : shell) : res ending :=
    match fuel with
    | O => Fuel
    | S fuel =>
      let e := run k in
      let iter := (Z.of_nat k + 1)%Z in
      do r <- requests grad (ev_asks e) s;
      match r with
      | inr s => Ok (En iter true status (ev_x e) s)
      | inl s =>
        let st := ev_status e in
        if match me with Conjugate => negb (st =? GSL_SUCCESS)%Z && negb (st =? GSL_CONTINUE)%Z | _ => negb (st =? GSL_SUCCESS)%Z end
        then Ok (En iter false st (ev_x e) s)
        else
          let st := ev_test e in
          if (st =? GSL_CONTINUE)%Z && (iter <? max_it)%Z && negb (match me with Newton => false | _ => ev_ctrl_c e end)
          then loop me grad max_it run fuel (S k) st s
          else Ok (En iter false st (ev_x e) s)
      end
    end.
  (** the status reported: 430, 452, 463 and 466 for conjugate gradients; 479, 488, 499 and 523 for the simplex;
      891 and 909 for root finding, where 909 tests the constant GSL_SUCCESS, which is 0 *)
  Definition apopstatus (me : method) (max_it : Z) (e : ending) : Z :=
    match me with
    | Conjugate => if (en_iter e =? max_it)%Z then -1 else if en_bad e then -1 else 0
    | Simplex => if (en_status e =? GSL_SUCCESS)%Z then 0 else if en_bad e then -1 else 0
    | Newton => -1
    end%Z.

  (** 43-48 apop_parts_wanted_settings, each y or n, if the model has the group; 574-584, get_desires: covariance wanted, info wanted *)
  Record parts := Pa { pa_cov : bool; pa_tests : bool; pa_info : bool }.
  Definition want_cov (w : option parts) : bool := match w with Some w => pa_tests w || pa_cov w | None => false end.
  Definition want_info (w : option parts) : bool := match w with Some w => pa_info w | None => true end.

  (** a real division in C *)
  Definition xquot (a b : R) : xr := if Req_EM_T b 0 then (if Rlt_dec 0 a then PInf else if Rlt_dec a 0 then NInf else NaN) else Fin (a / b).
  Definition xlogn (n : nat) : xr := xlog (Fin (INR n)).

  (** 378-393, add_info_criteria: the rows added to the info page.  [n]: the size of the data set, if there is one. *)
  Definition info_criteria (n : option nat) (p : params) (ll : xr) (k : nat) : list (string * xr) :=
    let ll := if truthy ll then ll else log_likelihood m p in
    let AIC := xsub (Fin (2 * INR k)) (xscale 2 ll) in
    [("log likelihood", ll); ("AIC", AIC)] ++
    match n with
    | Some n => [("AIC_c", xadd AIC (xquot (2 * INR k * (INR k + 1)) (INR n - INR k - 1)));
                 ("BIC", xsub (match xlogn n with Fin l => Fin (INR k * l) | e => if (k =? 0)%nat then NaN else e end) (xscale 2 ll))]
    | None => []
    end.

  (** 395-409, auxinfo: the parameters, and the rows added to the info page.  The covariance is computed by [cov], which leaves the parameters
      somewhere (see DiffModel.v); its page and the tests are not modelled.  [beta]: i->beta, [None] once it has been freed. *)
  Definition auxinfo (cov : params -> params) (w : option parts) (n : option nat) (beta : option (list R)) (status : Z) (ll : xr) (s : shell) : res (params * list (string * xr)) :=
    let p := if want_cov w then cov (s_par s) else s_par s in
    if s_info s then
      match beta with
      | Some b => Ok (p, ("status", Fin (IZR status)) :: info_criteria n p ll (length b))
      | None => UB
      end
    else Ok (p, [("status", Fin (IZR status))]).

  (** What the user gives (the apop_mle group, the parts wanted, the size of the data set). *)
  Record settings := St { st_method : string; st_start : option (list R); st_max : Z; st_path : bool; st_want : option parts; st_n : option nat }.

  (** 586-598 check_method, 639-643 and 652-658: the search to be used.  [score]: there is a score in the vtable.  dim_cycle_tolerance is 0. *)
  Inductive pick := Bad | Annealing | Use (me : method).
  Definition pick_method (score : bool) (name : string) : pick :=
    if negb (existsb (ci_eq name) [""; "NM simplex"; "FR cg"; "BFGS cg"; "PR cg"; "Annealing"; "Newton"; "Newton hybrid"; "Newton hybrid no scale"]) then Bad
    else
      let name := if (name =? "")%string then (if score then "FR cg" else "NM simplex") else name in
      if ci_eq name "annealing" then Annealing
      else if ci_eq name "NM simplex" then Use Simplex
      else if ci_eq name "Newton" || ci_eq name "Newton hybrid" || ci_eq name "Newton hybrid no scale" then Use Newton
      else Use Conjugate.

  (** 370-376, setup_starting_point; the array must be long enough *)
  Definition starting_point (start : option (list R)) (k : nat) : res (list R) :=
    match start with None => Ok (replicate k 1%R) | Some l => if (k <=? length l)%nat then Ok (take k l) else UB end.

  (** the requests of the set function of the minimiser, from a starting point, and what it does then *)
  Record optimiser := Op { op_init : list R -> list request; op_run : list R -> nat -> event; op_grad : params -> params; op_cov : params -> params }.

  (** the state after a search: parameters, rows added to the info page, path; [done]: whether it came to auxinfo *)
  Record found := Fo { f_par : params; f_rows : list (string * xr); f_path : option (list (list R * xr)) }.

  (** 411-472 apop_maximum_likelihood_w_d, 475-527 apop_maximum_likelihood_no_d, 885-916 find_roots, from the starting point on.  442-444 and
      492-494: a bad evaluation while the minimiser is set up ends the search, nothing is added to the info page.  In find_roots there
      is no place to jump to at that time.  The vector i->beta is freed before auxinfo in two of them (470, 913). *)
  Definition search_from (fuel : nat) (me : method) (op : optimiser) (st : settings) (p0 : params) (start : list R) : res found :=
    let s0 := Sh p0 (if st_path st then Some [] else None) (want_info (st_want st)) (Fin 0) in
    do r <- requests (op_grad op) (op_init op start) s0;
    match r with
    | inr s => match me with Newton => UB | _ => Ok (Fo (s_par s) [] (s_path s)) end
    | inl s =>
      do e <- loop me (op_grad op) (st_max st) (op_run op start) fuel 0 0 s;
      let s := en_sh e in
      let s := Sh (unpack (en_x e) (s_par s)) (s_path s) (s_info s) (s_best s) in
      do (p, rows) <- auxinfo (op_cov op) (st_want st) (st_n st) (match me with Simplex => Some start | _ => None end)
                        (apopstatus me (st_max st) e) (match me with Newton => Fin 0 | _ => s_best s end) s;
      Ok (Fo p rows (s_path s))
    end.

  (** 635-660, apop_maximum_likelihood, for a model with parameters and no dim_cycle_tolerance; [None]: the method is not on the list (nothing
      is done) or it is annealing (not modelled here) *)
  Definition maximum_likelihood (fuel : nat) (score : bool) (op : optimiser) (st : settings) (p0 : params) : res (option found) :=
    match pick_method score (st_method st) with
    | Use me => do start <- starting_point (st_start st) (length (pack p0)); do f <- search_from fuel me op st p0 start; Ok (Some f)
    | _ => Ok None
    end.
End search.
