(** Model of apop_model_entropy, apop_stats.m4.c:659-702.  Doubles are reals ([None]: NaN or infinite). *)
From Coq Require Import Reals.
From Verif Require Import DataModel StatsModel ConvModel LikeModel.
Local Open Scope list_scope.
Local Open Scope R_scope.

(** 659-662 norment, of a parameter set *)
Definition norment (par : page R) : option R :=
  match get_at par 1 0 with
  | Got s => let sigma_sq := s ^ 2 in if Req_EM_T sigma_sq 0 then None else Some ((ln (2 * PI * sigma_sq) + 1) / 2)
  | _ => None
  end.
(** 684-702, for a model with parameters [par]; [e_fn]: what the entropy table has for it (the tables: RegModel.v, DispModel.v; the table has the Normal's
    function, 689, and those users add); [rows]: the draws of apop_model_draws (AsstModel.v), [ll]: the log likelihood of one.  695-696: apop_map gives a
    vector, one number for each draw.  That a draw fails is not modelled. *)
Definition model_entropy {D} (e_fn : option (page R -> option R)) (par : page R) (rows : list D) (ll : D -> R) : option R :=
  match e_fn with
  | Some e => e par
  | None => try m <- vector_mean (map ll rows) None; Some (- m)
  end.
