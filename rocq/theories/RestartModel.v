(** Model of apop_estimate (apop_model.m4.c:229-235), apop_model_copy and apop_model_clear as far as the info page is concerned, and of
    apop_estimate_restart (apop_mle.m4.c:708-753).  The estimation proper is an arbitrary function [fit].  Doubles: [xr]. *)
From Coq Require Import Reals.
From Verif Require Import Base DataModel NamesModel SearchModel.
Local Open Scope string_scope.
Local Open Scope list_scope.
Local Open Scope nat_scope.

(** parameters: the vector, if any, and the other cells in the order of apop_data_pack *)
Record xpar := Xp { x_vec : option (list xr); x_rest : list xr }.
Definition xpack (p : xpar) : list xr := match x_vec p with Some v => v | None => [] end ++ x_rest p.
(** an apop_model, as far as used here.  [es_mle]: the apop_mle settings group, if any, and its starting point, if set. *)
Record est := Es { es_par : option xpar; es_info : option (page xr); es_mle : option (option (list xr)) }.
Definition with_start (e : est) (s : list xr) : est := Es (es_par e) (es_info e) (Some (Some s)).

(** apop_linear_algebra.m4.c:308-319, apop_vector_bounded; NULL is bounded *)
Definition xfinite_within (max : R) (x : xr) : bool := match x with Fin x => if Rlt_dec max x then false else if Rlt_dec x (- max) then false else true | _ => false end.
Definition bounded (v : option (list xr)) (max : R) : bool := match v with Some l => forallb (xfinite_within max) l | None => true end.

Section restart.
  Context (g : xr)                          (* fresh memory *)
          (relik : option xpar -> xr).      (* apop_log_likelihood at e->data *)
  (** the rows added to an info page, one apop_data_add_named_elmt each *)
  Definition add_rows (p : page xr) (l : list (string * xr)) : page xr := fold_left (fun acc '(s, x) => add_named_elmt g acc s x) l p.
  (** apop_model.m4.c:229-235, apop_estimate.  Line 230: apop_model_copy copies the info page, too (line 174; a copy is equal to its original, C04);
      line 231: apop_prep leaves an info page that is there as it is, up to its title (apop_model_clear, lines 35-38).  [fit]: what the estimation
      makes of the prepared model: its parameters and the rows it adds to the info page. *)
  Definition estimate (fit : est -> xpar * list (string * xr)) (m : est) : est :=
    let info := match es_info m with Some i => i | None => blank end in
    let m1 := Es (es_par m) (Some info) (es_mle m) in
    let '(p, rows) := fit m1 in
    Es (Some p) (Some (add_rows info rows)) (Some (match es_mle m with Some s => s | None => None end)).

  (** apop_mle.m4.c:531-536, get_ll *)
  Definition get_ll (e : est) : res xr :=
    do index <- match es_info e with Some i => name_find (nms i) "log likelihood" "r" | None => Ok (-2)%Z end;
    match es_info e with
    | Some i => if (-2 <? index)%Z then match get_at i index 0 with Got x => Ok x | GotNaN => Ok NaN | GotRange => UB end else Ok (relik (es_par e))
    | None => Ok (relik (es_par e))
    end.

  Inductive who := The_copy | The_old | The_new.
  (** the model returned, whether it is the new one, what has been freed, and the old one as it is now if it is still there *)
  Record outcome := Out { o_ret : est; o_new : bool; o_freed : list who }.

  (** 716-735: the starting point.  [v]: what is checked against the boundary; then copy and e as they are now.  715 is [cp].
      "es": apop_array_to_vector without a size takes sizeof(pointer)/sizeof(double), which is 1; the copy's starting point is not set.
      "ns": the size is 1, too, and it is e's starting point that is set. *)
  Definition choose_start (mode : string) (e cp : est) : res (option (list xr) * est * est) :=
    if (mode =? "es")%string then
      match es_mle e with None => UB | Some None => Ok (None, cp, e) | Some (Some []) => UB | Some (Some (x :: _)) => Ok (Some [x], cp, e) end
    else if (mode =? "ns")%string then
      match es_mle cp, es_mle e with
      | Some (Some (x :: _)), Some _ => Ok (Some [x], cp, with_start e [x])
      | _, _ => UB
      end
    else if (mode =? "np")%string then
      match es_par cp, es_mle cp with Some p, Some _ => Ok (Some (xpack p), with_start cp (xpack p), e) | _, _ => UB end
    else
      match es_par e with
      | None => Ok (None, cp, e)
      | Some p => match es_mle cp with Some _ => Ok (Some (xpack p), with_start cp (xpack p), e) | None => UB end
      end.
  (** 708-753, apop_estimate_restart.  [copy] None: NULL. *)
  Definition restart (fit : est -> xpar * list (string * xr)) (e : est) (copy : option est) (mode : string) (boundary : R) : res outcome :=
    let cp := match copy with Some c => c | None => e end in
    do (v, cp, e) <- choose_start mode e cp;
    if negb (bounded v boundary) then Ok (Out e false [])
    else
      let newcopy := estimate fit cp in
      if bounded (match es_par newcopy with Some p => x_vec p | None => None end) boundary then
        do n <- get_ll newcopy;
        do o <- get_ll e;
        if xgt n o then Ok (Out newcopy true [The_copy; The_old]) else Ok (Out e false [The_copy; The_new])
      else Ok (Out e false [The_copy; The_new]).
End restart.
