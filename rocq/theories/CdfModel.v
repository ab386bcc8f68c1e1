(** Model of apop_cdf for models without a cdf method, and of the life of its settings group (apop_model.m4.c:527-563, apop_model_copy 155-178, apop_model_free 55-75).
    Doubles are reals.  Left out: other settings groups (C26), models with unknown data size (-1), threads.  A model is given by its parameters; [draw] makes one draw from
    parameters and generator.  Handles of models, matrices and counters are positions in lists; a freed one is [None]. *)
From Coq Require Import Reals.
From Verif Require Import Base DataModel.
Local Open Scope list_scope.
Local Open Scope R_scope.

(** apop_cdf_settings: draws, draws_made, draws_refcount *)
Record group := Gp { g_draws : nat; g_made : option nat; g_rc : nat }.
Section cdf.
Context {P S : Type} (draw : P -> S -> list R * S).
Record model := Mo { m_par : P; m_dsize : nat; m_group : option group }.
Record world := Wo { w_models : list (option model); w_mats : list (option (list (list R))); w_rcs : list Z; w_rng : S }.
(** a new model, without the group; apop_model_set_parameters and the like *)
Definition new_model (w : world) (p : P) (dsize : nat) : world := Wo (w_models w ++ [Some (Mo p dsize None)]) (w_mats w) (w_rcs w) (w_rng w).
(** m->parameters changed in place *)
Definition set_par (w : world) (i : nat) (p : P) : res world :=
  match w_models w !! i with
  | Some (Some m) => Ok (Wo (<[i := Some (Mo p (m_dsize m) (m_group m))]> (w_models w)) (w_mats w) (w_rcs w) (w_rng w))
  | _ => UB
  end.
(** 555-558, the free *)
Definition free_group (w : world) (g : group) : res world :=
  match g_made g with
  | None => Ok w
  | Some id =>
    match w_rcs w !! g_rc g with
    | None => UB
    | Some c =>
      let rcs := <[g_rc g := (c - 1)%Z]> (w_rcs w) in
      if (c - 1 =? 0)%Z then match w_mats w !! id with Some (Some _) => Ok (Wo (w_models w) (<[id := None]> (w_mats w)) rcs (w_rng w)) | _ => UB end
      else Ok (Wo (w_models w) (w_mats w) rcs (w_rng w))
    end
  end.
(** 548-553, the init of the group by Apop_model_add_group with [draws] (0: not given, 1e4); a group already there is freed (apop_settings_group_alloc) *)
Definition add_group (w : world) (i : nat) (draws : nat) : res world :=
  match w_models w !! i with
  | Some (Some m) =>
    do w <- match m_group m with Some g => free_group w g | None => Ok w end;
    Ok (Wo (<[i := Some (Mo (m_par m) (m_dsize m) (Some (Gp (if (draws =? 0)%nat then N.to_nat 10000 else draws) None (length (w_rcs w)))))]> (w_models w)) (w_mats w) (w_rcs w ++ [1%Z]) (w_rng w))
  | _ => UB
  end.
(** apop_model_free *)
Definition free_model (w : world) (i : nat) : res world :=
  match w_models w !! i with
  | Some (Some m) => do w' <- match m_group m with Some g => free_group w g | None => Ok w end; Ok (Wo (<[i := None]> (w_models w')) (w_mats w') (w_rcs w') (w_rng w'))
  | _ => UB
  end.
(** apop_model_copy, with 560-562 *)
Definition copy_model (w : world) (i : nat) : res world :=
  match w_models w !! i with
  | Some (Some m) =>
    do rcs <- match m_group m with None => Ok (w_rcs w) | Some g => match w_rcs w !! g_rc g with Some c => Ok (<[g_rc g := (c + 1)%Z]> (w_rcs w)) | None => UB end end;
    Ok (Wo (w_models w ++ [Some m]) (w_mats w) rcs (w_rng w))
  | _ => UB
  end.
(** 497-502, lte; reading past the end of the reference ends the program *)
Fixpoint lte (v ref : list R) : res bool :=
  match v with
  | [] => Ok true
  | x :: v' => match ref with [] => UB | r :: ref' => if Rlt_dec r x then Ok false else lte v' ref' end
  end.
Fixpoint tally (rows : list (list R)) (ref : list R) (k : nat) : res nat :=
  match rows with [] => Ok k | v :: rows' => do b <- lte v ref; tally rows' ref (if b then Datatypes.S k else k) end.
Fixpoint draw_many (p : P) (n : nat) (s : S) : list (list R) * S :=
  match n with O => ([], s) | Datatypes.S n' => let '(x, s) := draw p s in let '(r, s) := draw_many p n' s in (x :: r, s) end.
(** 527-546, apop_cdf; [ref]: the first row of the data, packed (C19).  [None]: not a number *)
Definition cdf (w : world) (i : nat) (ref : list R) : res (option R * world) :=
  match w_models w !! i with
  | Some (Some m0) =>
    do w1 <- match m_group m0 with Some _ => Ok w | None => add_group w i 0 end;
    match w_models w1 !! i with
    | Some (Some (Mo p ds (Some g))) =>
      match (match g_made g with
             | Some id => Some (id, w1)
             | None => if (ds =? 0)%nat then None else let '(rows, s) := draw_many p (g_draws g) (w_rng w1) in
                 Some (length (w_mats w1), Wo (<[i := Some (Mo p ds (Some (Gp (g_draws g) (Some (length (w_mats w1))) (g_rc g))))]> (w_models w1)) (w_mats w1 ++ [Some rows]) (w_rcs w1) s)
             end) with
      | None => Ok (None, w1)
      | Some (id, w2) =>
        match w_mats w2 !! id with
        | Some (Some rows) => do k <- tally rows ref 0; Ok ((if (length rows =? 0)%nat then None else Some (INR k / INR (length rows))), w2)
        | _ => UB
        end
      end
    | _ => UB
    end
  | _ => UB
  end.
End cdf.
Arguments Mo {P}. Arguments Wo {P S}.
