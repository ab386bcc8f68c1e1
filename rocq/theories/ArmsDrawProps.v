(** C116, the rounds of one draw. *)
From Coq Require Import Reals Lra Lia.
From Verif Require Import DataModel ArmsModel.
Local Open Scope list_scope.

(** one round from the state [st], with the numbers u n, u (n+1), u (n+2) *)
Definition round (s : aset) (f : R -> R) (u : nat -> R) (n : nat) (st : arms) :=
  do p <- invert (u n) (env st) (ymax st); test s f st p (u (n + 1)) (u (n + 2)).
(** [j] rounds one after the other, all rejected, each with the envelope the one before it left, lead from [st] to [st'] *)
Inductive rejected (s : aset) (f : R -> R) (u : nat -> R) : nat -> nat -> arms -> arms -> Prop :=
| rejected_none n st : rejected s f u 0 n st st
| rejected_more j n st st1 st' x : round s f u n st = Ok (st1, Reject, x) -> rejected s f u j (n + 3) st1 st' -> rejected s f u (S j) n st st'.
Lemma rounds_spec s f u k : forall n st st' n' z o, rounds s f u k n st = Ok (st', n', z, o) ->
  (o = None /\ z = 0%Z /\ rejected s f u k n st st' /\ n' = n + 3 * k) \/
  exists j st1 x, j < k /\ rejected s f u j n st st1 /\ n' = n + 3 * j + 3 /\
    (z = 0%Z /\ o = Some x /\ round s f u (n + 3 * j) st1 = Ok (st', Accept, x) \/ z = 1%Z /\ o = None /\ round s f u (n + 3 * j) st1 = Ok (st', Violation, x)).
Proof.
  induction k as [|k IH]; intros n st st' n' z o H; cbn [rounds] in H.
  - injection H as <- <- <- <-. left. repeat split; [constructor|lia].
  - destruct (invert (u n) (env st) (ymax st)) as [p| |] eqn:E1; try discriminate. cbn [rbind] in H.
    destruct (test s f st p (u (n + 1)) (u (n + 2))) as [[[st1 v] x]| |] eqn:E2; try discriminate. cbn [rbind] in H.
    assert (R1 : round s f u n st = Ok (st1, v, x)) by (unfold round; rewrite E1; exact E2).
    destruct v; [injection H as <- <- <- <-| |injection H as <- <- <- <-].
    { right; exists 0, st, x. replace (n + 3 * 0) with n by lia. split; [lia|]. split; [constructor|]. split; [lia|]. auto. }
    2: { right; exists 0, st, x. replace (n + 3 * 0) with n by lia. split; [lia|]. split; [constructor|]. split; [lia|]. auto. }
    destruct (IH _ _ _ _ _ _ H) as [(A & B & C & D)|(j & st2 & y & A & B & C & D)].
    + left. repeat split; auto; [econstructor; eauto|lia].
    + right. exists (S j), st2, y. split; [lia|]. split; [econstructor; eauto|]. split; [lia|]. replace (n + 3 * S j) with (n + 3 + 3 * j) by lia. auto.
Qed.
(** a draw is up to 1,000 rounds, each with the envelope the rejected ones before it have improved.  It writes the x of the first round that accepts, and
    returns 0; a round that reports a violation ends it with 1 and nothing written. *)
Theorem C116_rounds : forall s f u n st st' n' z o, arms_draw s f u n st = Ok (st', n', z, o) ->
  (o = None /\ z = 0%Z /\ rejected s f u 1000 n st st') \/
  exists j st1 x, j < 1000 /\ rejected s f u j n st st1 /\
    (z = 0%Z /\ o = Some x /\ round s f u (n + 3 * j) st1 = Ok (st', Accept, x) \/ z = 1%Z /\ o = None /\ round s f u (n + 3 * j) st1 = Ok (st', Violation, x)).
Proof.
  intros s f u n st st' n' z o H. destruct (rounds_spec _ _ _ _ _ _ _ _ _ _ H) as [(A & B & C & _)|(j & st1 & x & A & B & _ & D)]; [left; auto|right; exists j, st1, x; auto].
Qed.
Print Assumptions C116_rounds.
