(** Model of the special-case tables: the hash macros of apop.m4.h:515-549 over the registry of apop_vtables.c (RegModel.v).
    A model is given by the addresses of its methods, 0 for NULL; size_t has 64 bits. *)
From Verif Require Import Base NamesModel RegModel RegProps.
Local Open Scope Z_scope.

Record methods := Me { m_ll : Z; m_p : Z; m_est : Z; m_draw : Z; m_cdf : Z }.
Definition w64 (x : Z) : Z := x mod 2 ^ 64.
Definition isnt0 (x : Z) : bool := negb (x =? 0).
(** 532 *)
Definition score_hash (m : methods) : Z := if isnt0 (m_ll m) then m_ll m else m_p m.
(** 536 and 540: the sum is the condition *)
Definition predict_hash (m : methods) : Z := if isnt0 (w64 (w64 ((if isnt0 (m_ll m) then m_ll m else m_p m) * 33) + m_est m)) then m_est m else 27.
(** 544-549 *)
Definition print_hash (m : methods) : Z :=
  if isnt0 (m_ll m) then m_ll m else if isnt0 (m_p m) then w64 (m_p m * 33) else if isnt0 (m_est m) then w64 (m_est m * 33 * 33) else if isnt0 (m_draw m) then w64 (m_draw m * 33 * 27)
  else if isnt0 (m_cdf m) then w64 (m_cdf m * 27 * 27) else 27.
(** 515-524 *)
Definition update_half (m : methods) : Z := if isnt0 (m_ll m) then m_ll m else if isnt0 (m_p m) then w64 (m_p m * 33) else if isnt0 (m_draw m) then w64 (m_draw m * 33 * 27) else 33 * 27 * 19.
Definition update_hash (m1 m2 : methods) : Z := w64 (update_half m1 + update_half m2 * 37).
(** 528 *)
Definition entropy_hash (m : methods) : Z := w64 (m_ll m + 33 * m_p m + 27 * m_draw m).

(** a registration: which table, which function, for which model (505, xxx_vtable_add) *)
Inductive reg (F : Type) := RScore (f : F) (m : methods) | RParam (f : F) (m : methods) | RPredict (f : F) (m : methods) | RPrint (f : F) (m : methods) | RUpdate (f : F) (m1 m2 : methods) | REntropy (f : F) (m : methods).
Arguments RScore {F}. Arguments RParam {F}. Arguments RPredict {F}. Arguments RPrint {F}. Arguments RUpdate {F}. Arguments REntropy {F}.
Definition to_vop {F} (r : reg F) : vop F :=
  match r with
  | RScore f m => VAdd "apop_score" f (score_hash m)
  | RParam f m => VAdd "apop_parameter_model" f (predict_hash m)
  | RPredict f m => VAdd "apop_predict" f (predict_hash m)
  | RPrint f m => VAdd "apop_model_print" f (print_hash m)
  | RUpdate f m1 m2 => VAdd "apop_update" f (update_hash m1 m2)
  | REntropy f m => VAdd "apop_entropy" f (entropy_hash m)
  end.
(** the tables after a history of registrations (each with whatever unspecified memory it meets), and the lookups (506, xxx_vtable_get) *)
Definition tables {F} (null : F) (h : list (reg F * (Z * F))) : vstate F := vrun null (map (fun rj => (to_vop (fst rj), snd rj)) h).
Definition get_score {F} (null : F) h (m : methods) : F := vget null (tables null h) "apop_score" (score_hash m).
Definition get_predict {F} (null : F) h (m : methods) : F := vget null (tables null h) "apop_predict" (predict_hash m).
Definition get_param {F} (null : F) h (m : methods) : F := vget null (tables null h) "apop_parameter_model" (predict_hash m).
Definition get_print {F} (null : F) h (m : methods) : F := vget null (tables null h) "apop_model_print" (print_hash m).
Definition get_update {F} (null : F) h (m1 m2 : methods) : F := vget null (tables null h) "apop_update" (update_hash m1 m2).
