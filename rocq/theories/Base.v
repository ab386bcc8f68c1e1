(** Generic vocabulary: outcomes of C code, list selection, grids.  No code of /repo is modelled here. *)
From Coq Require Export ZArith Lia Bool Ascii String ZifyBool ZifyNat ZifyN.
From stdpp Require Export prelude list strings option.
Global Open Scope Z_scope.
Global Open Scope nat_scope.

(** Outcome of running a piece of C code. [UB]: undefined behaviour (out-of-bounds access,
    uninitialised read, NULL dereference).  [Fuel]: the loop did not finish within the given fuel. *)
Inductive res (A : Type) : Type := Ok (a : A) | UB | Fuel.
Arguments Ok {A} a.  Arguments UB {A}.  Arguments Fuel {A}.

Definition rbind {A B} (r : res A) (f : A -> res B) : res B :=
  match r with Ok a => f a | UB => UB | Fuel => Fuel end.
Notation "'do' x <- r ; f" := (rbind r (fun x => f)) (at level 60, x pattern, r at next level, right associativity).

(** [keep_by ks l]: the elements of [l] whose flag in [ks] is true (flags missing: dropped). *)
Fixpoint keep_by {A} (ks : list bool) (l : list A) : list A :=
  match ks, l with
  | k :: ks', x :: l' => if k then x :: keep_by ks' l' else keep_by ks' l'
  | _, _ => []
  end.

(** A rectangular array with its two stored dimensions, row major. *)
Record grid (A : Type) := Gr { gr : nat; gc : nat; ga : list (list A) }.
Arguments Gr {A}.  Arguments gr {A}.  Arguments gc {A}.  Arguments ga {A}.

Definition wf_grid {A} (g : grid A) : Prop :=
  length (ga g) = gr g /\ Forall (fun r => length r = gc g) (ga g).

Definition cell {A} (g : grid A) (i j : nat) : option A :=
  match ga g !! i with Some r => r !! j | None => None end.

Definition bool_of {P} (d : {P} + {~ P}) : bool := if d then true else false.

Lemma keep_by_length_le {A} ks (l : list A) : length (keep_by ks l) <= length l.
Proof.
  revert l; induction ks as [|k ks IH]; intros [|x l]; simpl; try lia.
  destruct k; simpl; specialize (IH l); lia.
Qed.

Lemma keep_by_app {A} ks1 ks2 (l1 l2 : list A) :
  length ks1 = length l1 ->
  keep_by (ks1 ++ ks2) (l1 ++ l2) = keep_by ks1 l1 ++ keep_by ks2 l2.
Proof.
  revert l1; induction ks1 as [|k ks1 IH]; intros [|x l1] H; simpl in *; try lia; auto.
  rewrite IH by lia. destruct k; auto.
Qed.

Lemma keep_by_map {A B} (f : A -> B) ks l : keep_by ks (map f l) = map f (keep_by ks l).
Proof.
  revert l; induction ks as [|k ks IH]; intros [|x l]; simpl; auto.
  destruct k; simpl; rewrite IH; auto.
Qed.

Lemma keep_by_nil_r {A} ks : @keep_by A ks [] = [].
Proof. destruct ks; auto. Qed.

Lemma keep_by_Forall {A} (P : A -> Prop) ks l : Forall P l -> Forall P (keep_by ks l).
Proof.
  revert l; induction ks as [|k ks IH]; intros [|x l] H; simpl; auto.
  inversion H; subst. destruct k; auto.
Qed.

(** two grids with the same dimensions and cells are equal *)
Lemma grid_eq {A} (g h : grid A) :
  wf_grid g -> wf_grid h -> gr g = gr h -> gc g = gc h ->
  (forall i j, i < gr g -> j < gc g -> cell g i j = cell h i j) -> g = h.
Proof.
  destruct g as [r c a], h as [r' c' a']; unfold wf_grid, cell; simpl.
  intros [Hl Hf] [Hl' Hf'] -> -> H. f_equal.
  apply list_eq; intros i.
  destruct (a !! i) as [ri|] eqn:Ei.
  - assert (i < length a) as Hi by (eapply lookup_lt_Some; eauto).
    destruct (a' !! i) as [ri'|] eqn:Ei'.
    2:{ apply lookup_ge_None in Ei'. lia. }
    f_equal. apply list_eq; intros j.
    rewrite Forall_lookup in Hf, Hf'. pose proof (Hf _ _ Ei). pose proof (Hf' _ _ Ei').
    destruct (decide (j < c')) as [Hj|Hj].
    + specialize (H i j). rewrite Ei, Ei' in H. apply H; lia.
    + rewrite (proj2 (lookup_ge_None ri j)), (proj2 (lookup_ge_None ri' j)) by lia. auto.
  - apply lookup_ge_None in Ei. symmetry. apply lookup_ge_None. lia.
Qed.

Lemma cell_Some_lt {A} (g : grid A) i j x : wf_grid g -> cell g i j = Some x -> i < gr g /\ j < gc g.
Proof.
  destruct g as [r c a]; unfold wf_grid, cell; simpl; intros [Hl Hf] H.
  destruct (a !! i) as [ri|] eqn:Ei; [|discriminate].
  rewrite Forall_lookup in Hf. pose proof (Hf _ _ Ei). apply lookup_lt_Some in Ei, H. lia.
Qed.

Lemma cell_is_Some {A} (g : grid A) i j : wf_grid g -> i < gr g -> j < gc g -> is_Some (cell g i j).
Proof.
  destruct g as [r c a]; unfold wf_grid, cell; simpl; intros [Hl Hf] Hi Hj.
  destruct (a !! i) as [ri|] eqn:Ei.
  - rewrite Forall_lookup in Hf. pose proof (Hf _ _ Ei). apply lookup_lt_is_Some. lia.
  - apply lookup_ge_None in Ei. lia.
Qed.

Lemma lookup_map {A B} (f : A -> B) l i : map f l !! i = option_map f (l !! i).
Proof. revert i; induction l as [|x l IH]; intros [|i]; simpl; auto. Qed.

Global Arguments Nat.ltb : simpl never.
Global Arguments Nat.leb : simpl never.
