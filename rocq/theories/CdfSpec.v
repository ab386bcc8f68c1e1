(** The default apop_cdf: the vocabulary of C84. *)
From Coq Require Import Reals.
From Verif Require Import Base DataModel CdfModel.
Local Open Scope list_scope.
Local Open Scope R_scope.

(** every element at most that of the reference *)
Definition below (v ref : list R) : Prop := forall k x r, v !! k = Some x -> ref !! k = Some r -> x <= r.
(** [k] of the rows are below the reference *)
Inductive count_below (ref : list R) : list (list R) -> nat -> Prop :=
| count_none : count_below ref [] 0
| count_yes v rows k : below v ref -> count_below ref rows k -> count_below ref (v :: rows) (S k)
| count_no v rows k : ~ below v ref -> count_below ref rows k -> count_below ref (v :: rows) k.
Section spec.
Context {P G : Type} (draw : P -> G -> list R * G).
Notation world := (@world P G).
Definition live (w : world) (i : nat) (m : model) : Prop := w_models w !! i = Some (Some m).
(** the matrix of draws that a live model holds *)
Definition draws_of (w : world) (i : nat) (rows : list (list R)) : Prop := exists m g id, live w i m /\ m_group m = Some g /\ g_made g = Some id /\ w_mats w !! id = Some (Some rows).
(** one call by the program that uses the library *)
Inductive call : Type := New (p : P) (dsize : nat) | Par (i : nat) (p : P) | Add (i n : nat) | Free (i : nat) | Copy (i : nat) | Cdf (i : nat) (ref : list R).
Definition run (w : world) (c : call) : res world :=
  match c with
  | New p d => Ok (new_model w p d) | Par i p => set_par w i p | Add i n => add_group w i n | Free i => free_model w i | Copy i => copy_model w i
  | Cdf i ref => do (_, w') <- cdf draw w i ref; Ok w'
  end.
(** any history of calls from nothing *)
Inductive reached : world -> Prop :=
| reached_start s : reached (Wo [] [] [] s)
| reached_call w c w' : reached w -> run w c = Ok w' -> reached w'.
(** calls that leave the draws of model [i] to it *)
Definition spares (i : nat) (c : call) : Prop := match c with Add j _ | Free j => j <> i | _ => True end.
Inductive later (i : nat) : world -> world -> Prop :=
| later_now w : later i w w
| later_call w c w' w'' : spares i c -> run w c = Ok w' -> later i w' w'' -> later i w w''.
End spec.
