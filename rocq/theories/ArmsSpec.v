(** Specification for C115 and C116: concave functions, and the broken line through the points of an envelope. *)
From Coq Require Import Reals.
From Verif Require Import DataModel ArmsModel.
Local Open Scope R_scope.
(** a log density that is concave between a and b *)
Definition concave_on (a b : R) (f : R -> R) : Prop :=
  forall x y t, a <= x <= b -> a <= y <= b -> 0 <= t <= 1 -> t * f x + (1 - t) * f y <= f (t * x + (1 - t) * y).
(** the broken line through the points, at x, is at height h: x is in the piece from the i-th point to the next *)
Definition height_at (l : list pt) (x h : R) : Prop :=
  exists i a b, l !! i = Some a /\ l !! S i = Some b /\ px a <= x <= px b /\ px a < px b /\ h = py a + (x - px a) / (px b - px a) * (py b - py a).
(** a state that some history of setting up, choosing the chain's first state and testing proposals leads to *)
Inductive reach (s : aset) (f : R -> R) : arms -> Prop :=
| reach_initial st : initial s f = Ok (Some st) -> reach s f st
| reach_chain st x0 : reach s f st -> reach s f (set_chain f x0 st)
| reach_test st u1 u2 u3 p st' v x : reach s f st -> 0 <= u1 < 1 -> 0 <= u2 < 1 -> 0 <= u3 < 1 ->
    invert u1 (env st) (ymax st) = Ok p -> test s f st p u2 u3 = Ok (st', v, x) -> reach s f st'.
(** settings that are accepted: at least three starting points, in order and within the bounds, room for the first envelope, convexity not negative *)
Definition settings_ok (s : aset) : Prop :=
  (3 <= length (xinit s))%nat /\ (2 * length (xinit s) + 1 <= npoint s)%nat /\ 0 <= convex s /\
  (forall i x y, xinit s !! i = Some x -> xinit s !! S i = Some y -> x < y) /\
  (forall x, xinit s !! 0%nat = Some x -> xl s <= x) /\ (forall x, List.last (map Some (xinit s)) None = Some x -> x <= xr s).
(** the height of the line from a to b at t, and the proposal's density there (relative to exp(ymax - 50)): exp of that height, but the straight line between the
    ends' values if the heights differ by less than 1/10 *)
Definition line (a b : pt) (t : R) : R := py a + (t - px a) / (px b - px a) * (py b - py a).
Definition proposal (ym : R) (a b : pt) (t : R) : R :=
  if Rlt_dec (Rabs (py b - py a)) (1 / 10)
  then exp (py a - ym + 50) + (t - px a) / (px b - px a) * (exp (py b - ym + 50) - exp (py a - ym + 50))
  else exp (line a b t - ym + 50).
(** every point of the envelope is within 100 of the highest *)
Definition no_underflow (st : arms) : Prop := forall i q, env st !! i = Some q -> ymax st - 100 < py q.
(** the Markov chain's state is in the bounds and its log density is recorded *)
Definition chain_ok (s : aset) (f : R -> R) (st : arms) : Prop := xl s <= xprev st <= xr s /\ yprev st = f (xprev st).
Definition lipschitz_on (a b k : R) (f : R -> R) : Prop := forall x y, a <= x <= b -> a <= y <= b -> Rabs (f x - f y) <= k * Rabs (x - y).
