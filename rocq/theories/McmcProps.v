(** C39 Metropolis-Hastings bookkeeping, C40 block layout. *)
From Coq Require Import Reals Lra.
From Verif Require Import DataModel StatsModel ConvModel ConvProofs PackModel PackProps McmcModel.
Local Open Scope list_scope.
Local Open Scope nat_scope.

(** ---------- C39 ---------- *)
(** v with its entries start, ..., start+size-1 replaced by some other numbers *)
Definition replaced (v : list R) (start size : nat) (w : list R) : Prop :=
  length w = length v /\ forall i, i < start \/ start + size <= i -> w !! i = v !! i.
Lemma overwrite_ok v start size x : start + size <= length v -> exists w, overwrite v start size x = Ok w /\ replaced v start size w /\
  (forall i, i < size -> w !! (start + i) = Some (x i)).
Proof.
  intros H. unfold overwrite. destruct (Nat.leb_spec (start + size) (length v)); [|lia]. eexists. split; [reflexivity|].
  assert (L1 : length (take start v) = start) by (rewrite take_length; lia).
  assert (L2 : length (map x (seq 0 size)) = size) by (rewrite map_length, seq_length; auto).
  split; [split|].
  - rewrite !app_length, drop_length, L1, L2. lia.
  - intros i [Hi|Hi].
    + rewrite lookup_app_l by lia. apply lookup_take. auto.
    + rewrite lookup_app_r by lia. rewrite lookup_app_r by lia. rewrite lookup_drop. f_equal. lia.
  - intros i Hi. rewrite lookup_app_r by lia. rewrite lookup_app_l by lia. rewrite L1.
    replace (start + i - start) with i by lia. rewrite list_lookup_fmap, lookup_seq_lt by auto. auto.
Qed.
Lemma replaced_trans v start size w z : replaced v start size w -> replaced w start size z -> replaced v start size z.
Proof. intros [A1 A2] [B1 B2]. split; [congruence|]. intros i Hi. rewrite B2, A2 by auto. auto. Qed.
Lemma replaced_refl v start size : replaced v start size v.
Proof. split; auto. Qed.

Section C39.
Context (ll : list R -> option R) (fails : list R -> bool).
(** One step of the chain from c to c', for the block of entries start, ..., start+size-1: some proposal d, differing from the current draw
    only in the block, satisfying the constraint and with finite log likelihood l', is accepted (always if it is at least as
    likely as the current draw, else if the uniform draw's log is below the log of the likelihood ratio) or rejected. *)
Definition mh_step (block start size : nat) (c c' : chain) : Prop :=
  exists d l' u, replaced (draw c) start size d /\ fails d = false /\ ll d = Some l' /\
   (((last c = None \/ exists l, last c = Some l /\ (l <= l' \/ u = 0 \/ ln u < l' - l)%R) /\
     draw c' = d /\ pars c' = d /\ last c' = Some l' /\ accs c' = S (accs c) /\ rejs c' = rejs c /\ bacc c' = alter S block (bacc c) /\ brej c' = brej c)
    \/ (exists l, last c = Some l /\ (l' < l /\ u <> 0 /\ l' - l <= ln u)%R /\
        draw c' = draw c /\ pars c' = draw c /\ last c' = last c /\ accs c' = accs c /\ rejs c' = S (rejs c) /\ bacc c' = bacc c /\ brej c' = alter S block (brej c))).

Lemma accepts_spec l' la u : accepts l' la u = true -> la = None \/ exists l, la = Some l /\ (l <= l' \/ u = 0 \/ ln u < l' - l)%R.
Proof.
  unfold accepts, log_below. destruct la as [l|]; auto. intros H. right. exists l. split; auto.
  destruct (Rle_dec 0 (l' - l)); [left; lra|]. destruct (Req_EM_T u 0); auto. destruct (Rlt_dec (ln u) (l' - l)); [auto|discriminate].
Qed.
Lemma rejects_spec l' la u : accepts l' la u = false -> exists l, la = Some l /\ (l' < l /\ u <> 0 /\ l' - l <= ln u)%R.
Proof.
  unfold accepts, log_below. destruct la as [l|]; [|discriminate]. intros H. exists l. split; auto.
  destruct (Rle_dec 0 (l' - l)); [discriminate|]. destruct (Req_EM_T u 0); [discriminate|]. destruct (Rlt_dec (ln u) (l' - l)); [discriminate|]. lra.
Qed.

Lemma one_step_ok hv block start size clean tape : (hv = true \/ forall d, ll d <> None) -> forall c,
  replaced clean start size (draw c) -> start + size <= length clean ->
  match one_step ll fails hv block start size clean tape c with
  | Ok (c', tape') => exists c1, draw c1 = clean /\ last c1 = last c /\ accs c1 = accs c /\ rejs c1 = rejs c /\ bacc c1 = bacc c /\ brej c1 = brej c /\
       mh_step block start size c1 c' /\ (exists used, tape = used ++ tape')
  | Fuel => True | UB => False end.
Proof.
  intros Hv. induction tape as [|[x u] tape IH]; intros c Hr Hs; cbn [one_step]; auto.
  assert (Hlen : length (draw c) = length clean) by apply Hr.
  destruct (overwrite_ok (draw c) start size x ltac:(lia)) as (d & -> & Hd & _). cbn [rbind].
  pose proof (replaced_trans _ _ _ _ _ Hr Hd) as Hcd.
  assert (HT : forall c2 t2, match one_step ll fails hv block start size clean tape (Ch d d (last c) (accs c) (rejs c) (bacc c) (brej c) c2) with
     | Ok (c', tape') => exists c1, draw c1 = clean /\ last c1 = last c /\ accs c1 = accs c /\ rejs c1 = rejs c /\ bacc c1 = bacc c /\ brej c1 = brej c /\
       mh_step block start size c1 c' /\ (exists used, (x, t2) :: tape = used ++ tape')
     | Fuel => True | UB => False end).
  { intros c2 t2. specialize (IH (Ch d d (last c) (accs c) (rejs c) (bacc c) (brej c) c2) Hcd Hs). cbn [last accs rejs bacc brej] in IH.
    destruct (one_step _ _ _ _ _ _ _ _ _) as [[c' tape']| |]; auto.
    destruct IH as (c1 & H1 & H2 & H3 & H4 & H5 & H6 & H7 & (used & H8)). exists c1. repeat (split; auto). exists ((x, t2) :: used). rewrite H8. auto. }
  destruct (fails d) eqn:Ef; [apply HT|]. destruct (ll d) as [l'|] eqn:El.
  - set (c1 := Ch clean clean (last c) (accs c) (rejs c) (bacc c) (brej c) 0). destruct (accepts l' (last c) u) eqn:Ea.
    + exists c1. split; auto. split; auto. split; auto. split; auto. split; auto. split; auto. split; [|exists [(x, u)]; auto].
      exists d, l', u. split; auto. split; auto. split; auto. left. split; [apply accepts_spec; auto|]. cbn. auto 10.
    + exists c1. split; auto. split; auto. split; auto. split; auto. split; auto. split; auto. split; [|exists [(x, u)]; auto].
      exists d, l', u. split; auto. split; auto. split; auto. right. destruct (rejects_spec _ _ _ Ea) as (l & E1 & E2). exists l. cbn. auto 12.
  - destruct Hv as [->|Hv]; [apply HT|exfalso; apply (Hv d); auto].
Qed.
Lemma mh_step_ext block start size c1 c c' : draw c1 = draw c -> last c1 = last c -> accs c1 = accs c -> rejs c1 = rejs c -> bacc c1 = bacc c -> brej c1 = brej c ->
  mh_step block start size c1 c' -> mh_step block start size c c'.
Proof. unfold mh_step. intros -> -> -> -> -> ->. auto. Qed.

(** a layout of n parameters: consecutive blocks from 0 to n *)
Definition layout (starts : list nat) (n : nat) : Prop :=
  2 <= length starts /\ starts !! 0 = Some 0 /\ starts !! (length starts - 1) = Some n /\
  forall i a b, starts !! i = Some a -> starts !! S i = Some b -> a <= b.
Lemma layout_le starts n : layout starts n -> forall i a, starts !! i = Some a -> a <= n.
Proof.
  intros (H1 & H2 & H3 & H4) i a Hi. assert (Hlt := lookup_lt_Some _ _ _ Hi).
  remember (length starts - 1 - i) as k eqn:Ek. revert i a Hi Hlt Ek. induction k as [|k IH]; intros i a Hi Hlt Ek.
  - replace i with (length starts - 1) in Hi by lia. rewrite H3 in Hi. injection Hi as ->. auto.
  - destruct (lookup_lt_is_Some_2 starts (S i)) as [b Hb]; [lia|]. pose proof (H4 i a b Hi Hb).
    assert (b <= n) by (eapply (IH (S i)); eauto; lia). lia.
Qed.

(** consecutive steps through the blocks in turn *)
Fixpoint chained (starts : list nat) (block : nat) (c : chain) (states : list chain) : Prop :=
  match states with
  | [] => True
  | s :: states' => (exists start fin, starts !! block = Some start /\ starts !! S block = Some fin /\ mh_step block start (fin - start) c s) /\
                    chained starts (S block mod (length starts - 1)) s states'
  end.
Lemma mh_len block start size c c' : mh_step block start size c c' -> length (draw c') = length (draw c).
Proof. intros (d & l' & u & Hr & _ & _ & [(_ & -> & _)|(l & _ & _ & -> & _)]); auto. apply Hr. Qed.

Lemma last_cons_default (x : chain) l d : List.last (x :: l) d = List.last l x.
Proof. revert x. induction l as [|y l IH]; intros x; auto. change (List.last (x :: y :: l) d) with (List.last (y :: l) d). rewrite IH. destruct l; auto. cbn. clear.
  revert c. induction l as [|z l IH]; intros c; auto. cbn in *. destruct l; auto. Qed.
Lemma main_loop_ok hv starts n : (hv = true \/ forall d, ll d <> None) -> layout starts n -> forall k block row tape c out,
  block < length starts - 1 -> length (draw c) = n -> (row + Z.of_nat k <= Z.of_nat (length out))%Z ->
  match main_loop ll fails hv k starts block row tape c out with
  | Ok (c', out') => exists states, length states = k /\ chained starts block c states /\ c' = List.last states c /\ length out' = length out /\
      forall r, out' !! r = if (row <=? Z.of_nat r)%Z && (Z.of_nat r <? row + Z.of_nat k)%Z
                            then option_map (fun s => Some (draw s)) (states !! Z.to_nat (Z.of_nat r - row)) else out !! r
  | Fuel => True | UB => False end.
Proof.
  intros Hv HL. induction k as [|k IH]; intros block row tape c out Hb Hn Hrow; cbn [main_loop].
  - exists []. cbn. split; auto. split; auto. split; auto. split; auto. intros r. destruct (_ && _) eqn:E; auto. lia.
  - destruct (lookup_lt_is_Some_2 starts block) as [start E1]; [lia|]. destruct (lookup_lt_is_Some_2 starts (S block)) as [fin E2]; [lia|]. rewrite E1, E2.
    assert (Hsf : start <= fin) by (apply HL with block; auto). assert (Hfn : fin <= n) by (eapply layout_le; eauto).
    pose proof (one_step_ok hv block start (fin - start) (draw c) tape Hv c (replaced_refl _ _ _) ltac:(lia)) as HS.
    destruct (one_step _ _ _ _ _ _ _ _ _) as [[c1 tape1]| |]; cbn [rbind]; auto.
    destruct HS as (c0 & D1 & D2 & D3 & D4 & D5 & D6 & HS & _). apply (mh_step_ext _ _ _ c0 c) in HS; auto.
    assert (Hn1 : length (draw c1) = n) by (rewrite (mh_len _ _ _ _ _ HS); auto).
    unfold record_row. set (out1 := if (row <? 0)%Z then out else <[Z.to_nat row := Some (draw c1)]> out).
    assert (HR : (if (row <? 0)%Z then Ok out else if (row <? Z.of_nat (length out))%Z then Ok (<[Z.to_nat row := Some (draw c1)]> out) else UB) = Ok out1).
    { unfold out1. destruct (Z.ltb_spec row 0); auto. destruct (Z.ltb_spec row (Z.of_nat (length out))); auto. lia. }
    rewrite HR. cbn [rbind]. destruct HL as (L1 & L2 & L3 & L4). destruct (Nat.eqb_spec (length starts - 1) 0); [lia|].
    assert (Ho1 : length out1 = length out) by (unfold out1; destruct (row <? 0)%Z; rewrite ?insert_length; auto).
    specialize (IH (S block mod (length starts - 1)) (row + 1)%Z tape1 c1 out1). 
    specialize (IH (Nat.mod_upper_bound _ _ n0) Hn1 ltac:(rewrite Ho1; lia)).
    destruct (main_loop _ _ _ _ _ _ _ _ _ _) as [[c' out']| |]; auto.
    destruct IH as (states & S1 & S2 & S3 & S4 & S5). exists (c1 :: states). cbn [length]. split; [lia|]. split; [cbn; split; eauto 10|].
    split; [rewrite S3; symmetry; apply last_cons_default|].
    split; [lia|]. intros r. rewrite S5. clear S5.
    destruct ((row + 1 <=? Z.of_nat r)%Z && (Z.of_nat r <? row + 1 + Z.of_nat k)%Z) eqn:Ea.
    + destruct ((row <=? Z.of_nat r)%Z && (Z.of_nat r <? row + Z.of_nat (S k))%Z) eqn:Eb; [|lia].
      replace (Z.to_nat (Z.of_nat r - row)) with (S (Z.to_nat (Z.of_nat r - (row + 1)))) by lia. auto.
    + destruct ((row <=? Z.of_nat r)%Z && (Z.of_nat r <? row + Z.of_nat (S k))%Z) eqn:Eb.
      * assert (row = Z.of_nat r) by lia. subst row. rewrite Z.sub_diag. cbn. unfold out1.
        destruct (Z.ltb_spec (Z.of_nat r) 0); [lia|]. rewrite Nat2Z.id. apply list_lookup_insert. lia.
      * unfold out1. destruct (Z.ltb_spec row 0); auto. apply list_lookup_insert_ne. lia.
Qed.
End C39.

Lemma mh_good ll fails block start size c c' : mh_step ll fails block start size c c' ->
  (last c = None \/ (last c <> None /\ ll (draw c) = last c /\ fails (draw c) = false)) ->
  pars c' = draw c' /\ fails (draw c') = false /\ last c' <> None /\ ll (draw c') = last c' /\ accs c' + rejs c' = S (accs c + rejs c).
Proof.
  intros (d & l' & u & Hr & Hf & Hl & [(_ & -> & -> & -> & -> & -> & _)|(l & E1 & _ & -> & -> & -> & -> & -> & _)]) Hg.
  - repeat split; auto; discriminate.
  - destruct Hg as [Hg|(G1 & G2 & G3)]; [congruence|]. repeat split; auto; lia.
Qed.
Lemma chained_states ll fails starts : forall states block c, chained ll fails starts block c states ->
  (last c = None \/ (last c <> None /\ ll (draw c) = last c /\ fails (draw c) = false)) ->
  forall k s, states !! k = Some s ->
    pars s = draw s /\ fails (draw s) = false /\ last s <> None /\ ll (draw s) = last s /\ accs s + rejs s = accs c + rejs c + S k /\ length (draw s) = length (draw c).
Proof.
  induction states as [|s0 states IH]; intros block c Hc Hg k s Hk; [discriminate|]. cbn in Hc. destruct Hc as [(start & fin & _ & _ & Hm) Hc].
  pose proof (mh_len _ _ _ _ _ _ _ Hm) as HL.
  destruct (mh_good _ _ _ _ _ _ _ Hm Hg) as (G1 & G2 & G3 & G4 & G5). destruct k as [|k].
  - cbn in Hk. injection Hk as <-. split; [auto|]. split; [auto|]. split; [auto|]. split; [auto|]. split; [lia|auto].
  - cbn in Hk. destruct (IH _ _ Hc (or_intror (conj G3 (conj G4 G2))) k s Hk) as (H1 & H2 & H3 & H4 & H5 & H6). split; [auto|]. split; [auto|]. split; [auto|]. split; [auto|]. split; [lia|congruence].
Qed.

(** C39: a run with [periods] periods of which [nb] are burn-in (a whole number), on a layout of the parameters, never fails for want of room.  If
    the tape suffices, there are [periods] states, each one step from the previous, the blocks taken in turn; in every state the
    model's parameters are the current draw, which satisfies the constraint and whose log likelihood is the one remembered; the output's
    rows are the draws of the states after burn-in, and every step was counted. *)
Theorem C39_run : forall ll fails hv periods nb burnin starts params start1 tape,
  (hv = true \/ forall d, ll d <> None) -> (0 <= burnin <= 1)%R -> (INR periods * burnin = INR nb)%R -> layout starts (length params) ->
  match metropolis ll fails hv periods burnin starts params start1 tape with
  | Ok o => exists c0 states, draw c0 = (if start1 then replicate (length params) 1%R else params) /\ last c0 = None /\ accs c0 = 0 /\ rejs c0 = 0 /\
      length states = periods /\ chained ll fails starts 0 c0 states /\ m_chain o = List.last states c0 /\
      m_rows o = map (fun s => Some (draw s)) (drop nb states) /\
      forall k s, states !! k = Some s -> pars s = draw s /\ fails (draw s) = false /\ last s <> None /\ ll (draw s) = last s /\
        accs s + rejs s = S k /\ length (draw s) = length params
  | Fuel => True | UB => False end.
Proof.
  intros ll fails hv periods nb burnin starts params start1 tape Hv Hb Hnb HL. unfold metropolis.
  destruct (Rlt_dec 1 burnin) as [H|_]; [lra|].
  assert (Hle : nb <= periods). { apply INR_le. rewrite <- Hnb. pose proof (pos_INR periods). nra. }
  assert (Hd : (INR periods * (1 - burnin))%R = INR (periods - nb)) by (rewrite minus_INR by auto; lra).
  rewrite Hd, Hnb, !trunc_INR. destruct (Z.ltb_spec (Z.of_nat (periods - nb)) 0); [lia|]. rewrite Nat2Z.id.
  set (n := length starts - 1).
  set (c0 := Ch (if start1 then replicate (length params) 1%R else params) params None 0 0 (replicate n 0) (replicate n 0) 0).
  assert (Hc0 : length (draw c0) = length params) by (unfold c0; cbn; destruct start1; rewrite ?replicate_length; auto).
  pose proof (main_loop_ok ll fails hv starts (length params) Hv HL periods 0 (- Z.of_nat nb)%Z tape c0 (replicate (periods - nb) None)) as HM.
  rewrite replicate_length in HM. specialize (HM ltac:(destruct HL; lia) Hc0 ltac:(lia)).
  destruct (main_loop _ _ _ _ _ _ _ _ _ _) as [[c' out']| |]; cbn [rbind]; auto.
  destruct HM as (states & S1 & S2 & S3 & S4 & S5). exists c0, states. split; auto. split; auto. split; auto. split; auto. split; auto. split; auto. split; auto.
  cbn [m_rows]. split.
  - apply list_eq. intros r. rewrite S5, list_lookup_fmap, lookup_drop.
    destruct ((- Z.of_nat nb <=? Z.of_nat r)%Z && (Z.of_nat r <? - Z.of_nat nb + Z.of_nat periods)%Z) eqn:E.
    + replace (Z.to_nat (Z.of_nat r - - Z.of_nat nb)) with (nb + r) by lia. destruct (states !! (nb + r)); auto.
    + rewrite (lookup_ge_None_2 states) by lia. cbn. apply lookup_ge_None_2. rewrite replicate_length. lia.
  - intros k s Hk. destruct (chained_states ll fails starts states 0 c0 S2 (or_introl eq_refl) k s Hk) as (H1 & H2 & H3 & H4 & H5 & H6).
    unfold c0 in H5. cbn in H5. rewrite Hc0 in H6. auto 10.
Qed.
Print Assumptions C39_run.

(** C39: if every proposal is admissible, the run takes one proposal per period. *)
Lemma one_step_total ll fails hv block start size clean tape c : (forall d, ll d <> None) -> (forall d, fails d = false) ->
  start + size <= length (draw c) -> tape <> [] -> exists c' x, one_step ll fails hv block start size clean tape c = Ok (c', List.tl tape) /\ x = 0.
Proof.
  intros Hl Hf Hs Ht. destruct tape as [|[x u] tape]; [congruence|]. cbn [one_step].
  destruct (overwrite_ok (draw c) start size x Hs) as (d & -> & _). cbn [rbind]. rewrite Hf. destruct (ll d) as [l|] eqn:E; [|exfalso; eapply Hl; eauto].
  destruct (accepts _ _ _); cbn; eauto.
Qed.
Lemma main_total ll fails hv starts n : (forall d, ll d <> None) -> (forall d, fails d = false) -> layout starts n -> forall k block row tape c out,
  block < length starts - 1 -> length (draw c) = n -> k <= length tape -> main_loop ll fails hv k starts block row tape c out <> Fuel.
Proof.
  intros Hl Hf HL. induction k as [|k IH]; intros block row tape c out Hb Hn Ht; cbn [main_loop]; [discriminate|].
  destruct (lookup_lt_is_Some_2 starts block) as [start E1]; [lia|]. destruct (lookup_lt_is_Some_2 starts (S block)) as [fin E2]; [lia|]. rewrite E1, E2.
  assert (Hsf : start <= fin) by (apply HL with block; auto). assert (Hfn : fin <= n) by (eapply layout_le; eauto).
  destruct (one_step_total ll fails hv block start (fin - start) (draw c) tape c Hl Hf) as (c' & _ & E & _); [lia|destruct tape; [cbn in Ht; lia|discriminate]|].
  pose proof (one_step_ok ll fails hv block start (fin - start) (draw c) tape (or_intror Hl) c (replaced_refl _ _ _) ltac:(lia)) as HS.
  rewrite E in *. cbn [rbind]. destruct HS as (c0 & D1 & _ & _ & _ & _ & _ & HS & _). pose proof (mh_len _ _ _ _ _ _ _ HS) as HLn.
  unfold record_row. destruct (row <? 0)%Z; [|destruct (row <? _)%Z; cbn [rbind]; [|discriminate]]; cbn [rbind];
    (destruct (_ =? 0) eqn:E0; [discriminate|]; apply Nat.eqb_neq in E0; apply IH; [apply Nat.mod_upper_bound; auto|congruence|destruct tape; cbn in *; lia]).
Qed.
Theorem C39_terminates : forall ll fails hv periods nb burnin starts params start1 tape,
  (forall d, ll d <> None) -> (forall d, fails d = false) -> (0 <= burnin <= 1)%R -> (INR periods * burnin = INR nb)%R -> layout starts (length params) ->
  periods <= length tape -> exists o, metropolis ll fails hv periods burnin starts params start1 tape = Ok o.
Proof.
  intros ll fails hv periods nb burnin starts params start1 tape Hl Hf Hb Hnb HL Ht.
  pose proof (C39_run ll fails hv periods nb burnin starts params start1 tape (or_intror Hl) Hb Hnb HL) as HR.
  destruct (metropolis _ _ _ _ _ _ _ _ _) as [o| |] eqn:E; [eauto|tauto|]. exfalso. revert E. unfold metropolis.
  destruct (trunc _ <? 0)%Z; [discriminate|].
  match goal with |- (rbind ?m _ = _) -> _ => destruct m as [[c out]| |] eqn:E; cbn [rbind]; try discriminate end. intros _.
  eapply main_total in E; eauto; [destruct HL; lia|]. cbn. destruct start1; rewrite ?replicate_length; auto.
Qed.
Print Assumptions C39_terminates.

Example C39_nonvacuous : layout [0; 2; 3] 3 /\ (INR 4 * (1 / 2) = INR 2)%R /\
  chained (fun _ => Some 0%R) (fun _ => false) [0; 1] 0 (Ch [1%R] [1%R] None 0 0 [0] [0] 0) [Ch [7%R] [7%R] (Some 0%R) 1 0 [1] [0] 0].
Proof.
  split; [|split; [cbn; lra|]].
  - split; [cbn; lia|]. split; auto. split; auto. intros [|[|[|i]]] a b; cbn; intros; try discriminate; try (injection H as <-; injection H0 as <-; lia).
  - cbn. split; auto. exists 0, 1. split; auto. split; auto. exists [7%R], 0%R, 0%R. split; [split; auto; intros [|i] H; cbn; auto; lia|]. cbn. auto 12.
Qed.

(** C39: if periods*burnin is not a whole number (documented: any fraction), one more row is written than the output has: every run that does not run
    out of tape ends in the dereference of NULL. *)
Lemma trunc_between x k : (INR k <= x < INR k + 1)%R -> trunc x = Z.of_nat k.
Proof.
  intros H. unfold trunc. destruct (Rle_dec 0 x) as [|Hn]; [|pose proof (pos_INR k); lra].
  unfold Int_part. assert (Hu : up x = (Z.of_nat k + 1)%Z).
  { symmetry. apply tech_up; rewrite plus_IZR, <- INR_IZR_INZ; lra. } rewrite Hu. lia.
Qed.
Theorem C39_burnin_refuted : forall ll fails hv periods nb burnin starts params start1 tape o,
  (0 <= burnin <= 1)%R -> (INR nb < INR periods * burnin < INR nb + 1)%R ->
  metropolis ll fails hv periods burnin starts params start1 tape <> Ok o.
Proof.
  intros ll fails hv periods nb burnin starts params start1 tape o Hb Hn. unfold metropolis. destruct (Rlt_dec 1 burnin) as [H|_]; [lra|].
  assert (Hlt : nb < periods). { apply INR_lt. pose proof (pos_INR periods). nra. }
  rewrite (trunc_between (INR periods * burnin) nb) by lra.
  rewrite (trunc_between (INR periods * (1 - burnin)) (periods - nb - 1)).
  2:{ rewrite !minus_INR by lia. cbn [INR]. lra. }
  destruct (Z.ltb_spec (Z.of_nat (periods - nb - 1)) 0); [lia|]. rewrite Nat2Z.id.
  set (c0 := Ch _ _ _ _ _ _ _ _). clearbody c0.
  assert (HN : forall k block row tape c out o, 0 < k -> (row + Z.of_nat k > Z.of_nat (length out))%Z -> (row + Z.of_nat k > 0)%Z -> main_loop ll fails hv k starts block row tape c out <> Ok o).
  { clear. induction k as [|k IH]; intros block row tape c out o Hk Hr Hr2; [lia|]. cbn [main_loop].
    destruct (starts !! block); [|discriminate]. destruct (starts !! S block); [|discriminate].
    destruct (one_step _ _ _ _ _ _ _ _ _) as [[c1 t1]| |]; cbn [rbind]; try discriminate.
    destruct (record_row out row (draw c1)) as [out1| |] eqn:Er; cbn [rbind]; try discriminate.
    assert (Hl : length out1 = length out /\ (row < Z.of_nat (length out))%Z \/ length out1 = length out /\ (row < 0)%Z).
    { unfold record_row in Er. destruct (Z.ltb_spec row 0); [injection Er as <-; auto|]. destruct (Z.ltb_spec row (Z.of_nat (length out))); [|discriminate].
      injection Er as <-. rewrite insert_length. auto. }
    destruct (_ =? 0); [discriminate|]. destruct k as [|k]; [lia|]. apply IH; lia. }
  match goal with |- rbind ?m _ <> _ => destruct m as [[c out]| |] eqn:E; cbn [rbind]; try discriminate end.
  exfalso. eapply HN; [| | |exact E]; rewrite ?replicate_length; lia.
Qed.
Print Assumptions C39_burnin_refuted.
Example C39_burnin_case : (INR 0 < INR 1 * (1 / 2) < INR 0 + 1)%R.
Proof. cbn. lra. Qed.

(** C39: documented: a constraint failure sets the model's error to 'c'; the code sets that of the data set in it. *)
Theorem C39_error_refuted : forall ll fails hv periods burnin starts params start1 tape o,
  metropolis ll fails hv periods burnin starts params start1 tape = Ok o -> m_model_err o = None /\ (cfails (m_chain o) <> 0 -> m_data_err o = Some "c"%char).
Proof.
  intros *. unfold metropolis. destruct (_ <? 0)%Z; [discriminate|].
  match goal with |- (rbind ?m _ = _) -> _ => destruct m as [[c out]| |]; cbn [rbind]; try discriminate end. intros [= <-]. cbn.
  split; auto. destruct (Nat.eqb_spec (cfails c) 0); congruence.
Qed.
Print Assumptions C39_error_refuted.
(** C39: a proposal with NaN likelihood (documented: thrown out) crashes the run if the parameters have no vector. *)
Theorem C39_nan_refuted : forall ll fails block start size clean x u tape c d, overwrite (draw c) start size x = Ok d -> fails d = false -> ll d = None ->
  one_step ll fails false block start size clean ((x, u) :: tape) c = UB.
Proof. intros * H1 H2 H3. cbn [one_step]. rewrite H1. cbn [rbind]. rewrite H2, H3. auto. Qed.
Print Assumptions C39_nan_refuted.

(** C39: drawing on: one step per block, each appended to the rows; earlier rows are kept; the value returned is the last row's, and is in the model's
    parameters; the answer is 1 exactly if a proposal failed the constraint. *)
Fixpoint in_turn (ll : list R -> option R) (fails : list R -> bool) (starts : list nat) (block : nat) (c : chain) (states : list chain) : Prop :=
  match states with
  | [] => True
  | s :: states' => (exists start fin, starts !! block = Some start /\ starts !! S block = Some fin /\ mh_step ll fails block start (fin - start) c s) /\
                    in_turn ll fails starts (S block) s states'
  end.
Theorem C39_draw : forall ll fails hv starts tape c rows, (hv = true \/ forall d, ll d <> None) -> layout starts (length (pars c)) ->
  (last c <> None /\ ll (pars c) = last c /\ fails (pars c) = false) ->
  match metropolis_draw ll fails hv starts tape c rows with
  | Ok (c', rows', ret) => exists states, S (length states) = length starts /\ 
      in_turn ll fails starts 0 (Ch (pars c) (pars c) (last c) (accs c) (rejs c) (bacc c) (brej c) 0) states /\
      rows' = rows ++ map (fun s => Some (draw s)) states /\ stdpp.list.last states = Some c' /\
      pars c' = draw c' /\ ll (draw c') = last c' /\ fails (draw c') = false /\ (ret = 1%Z <-> cfails c' <> 0) /\ (ret = 0%Z <-> cfails c' = 0)
  | Fuel => True | UB => False end.
Proof.
  intros ll fails hv starts tape c rows Hv HL Hg. unfold metropolis_draw.
  set (c0 := Ch (pars c) (pars c) (last c) (accs c) (rejs c) (bacc c) (brej c) 0).
  assert (HD : forall k block tape c rows, block + k = length starts - 1 -> length (draw c) = length (pars c0) -> (last c <> None /\ ll (draw c) = last c /\ fails (draw c) = false) -> pars c = draw c ->
    match draw_blocks ll fails hv k starts block tape c rows with
    | Ok (c', rows') => exists states, length states = k /\ in_turn ll fails starts block c states /\ rows' = rows ++ map (fun s => Some (draw s)) states /\
        c' = default c (stdpp.list.last states) /\ pars c' = draw c' /\ ll (draw c') = last c' /\ fails (draw c') = false
    | Fuel => True | UB => False end).
  { induction k as [|k IH]; intros block tape0 c1 rows1 Hb Hn Hg1 Hp1; cbn [draw_blocks].
    - exists []. cbn. rewrite app_nil_r. split; auto. split; auto. split; auto. split; auto. split; auto. tauto.
    - destruct (lookup_lt_is_Some_2 starts block) as [start E1]; [lia|]. destruct (lookup_lt_is_Some_2 starts (S block)) as [fin E2]; [lia|]. rewrite E1, E2.
      assert (Hsf : start <= fin) by (apply HL with block; auto). assert (Hfn : fin <= length (pars c0)) by (eapply layout_le; eauto).
      pose proof (one_step_ok ll fails hv block start (fin - start) (draw c1) tape0 Hv c1 (replaced_refl _ _ _) ltac:(lia)) as HS.
      destruct (one_step _ _ _ _ _ _ _ _ _) as [[c2 tape2]| |]; cbn [rbind]; auto.
      destruct HS as (cc & D1 & D2 & D3 & D4 & D5 & D6 & HS & _). apply (mh_step_ext _ _ _ _ _ cc c1) in HS; auto.
      unfold record_row. rewrite app_length. cbn [length]. destruct (Z.ltb_spec (Z.of_nat (length rows1)) 0); [lia|].
      destruct (Z.ltb_spec (Z.of_nat (length rows1)) (Z.of_nat (length rows1 + 1))); [|lia]. cbn [rbind].
      rewrite Nat2Z.id, insert_app_r_alt by lia. rewrite Nat.sub_diag. cbn [insert list_insert].
      destruct (mh_good _ _ _ _ _ _ _ HS (or_intror Hg1)) as (G1 & G4 & G2 & G3 & _).
      specialize (IH (S block) tape2 c2 (rows1 ++ [Some (draw c2)]) ltac:(lia)). rewrite (mh_len _ _ _ _ _ _ _ HS) in IH.
      specialize (IH Hn (conj G2 (conj G3 G4)) G1). destruct (draw_blocks _ _ _ _ _ _ _ _ _) as [[c' rows']| |]; auto.
      destruct IH as (states & S1 & S2 & S3 & S4 & S5). exists (c2 :: states). cbn [length map in_turn]. split; [lia|]. split; [split; eauto 10|].
      split; [rewrite S3, <- app_assoc; auto|]. split; [|auto]. rewrite S4, last_cons. destruct (stdpp.list.last states); auto. }
  specialize (HD (length starts - 1) 0 tape c0 rows ltac:(lia) eq_refl Hg eq_refl). assert (H2 : 2 <= length starts) by apply HL.
  destruct (draw_blocks _ _ _ _ _ _ _ _ _) as [[c' rows']| |]; cbn [rbind]; auto.
  destruct HD as (states & S1 & S2 & S3 & S4 & S5 & S6 & S7). exists states. split; [lia|]. split; [auto|]. split; [auto|].
  split. { destruct (stdpp.list.last states) eqn:El; [cbn in S4; congruence|]. apply last_None in El. subst. cbn in S1. lia. }
  split; [auto|]. split; [auto|]. split; [auto|]. destruct (Nat.eqb_spec (cfails c') 0); split; split; intros; auto; try lia; congruence.
Qed.
Print Assumptions C39_draw.

(** ---------- C40 ---------- *)
(** parameter i is in the b-th block *)
Definition in_block (starts : list nat) (i b : nat) : Prop :=
  exists s f, starts !! b = Some s /\ starts !! S b = Some f /\ s <= i < f.
Lemma layout_mono starts n : layout starts n -> forall i j a b, i <= j -> starts !! i = Some a -> starts !! j = Some b -> a <= b.
Proof.
  intros (_ & _ & _ & H4) i j a b Hij. revert b. induction Hij as [|j Hij IH]; intros b Ha Hb.
  - rewrite Ha in Hb. injection Hb as ->. auto.
  - destruct (lookup_lt_is_Some_2 starts j) as [c Hc]; [apply lookup_lt_Some in Hb; lia|]. specialize (IH c Ha Hc). pose proof (H4 j c b Hc Hb). lia.
Qed.
Lemma layout_cover starts n : layout starts n -> forall i, i < n -> exists b, in_block starts i b /\ forall b', in_block starts i b' -> b' = b.
Proof.
  intros HL i Hi. assert (HE : exists b, in_block starts i b).
  { pose proof HL as (H1 & H2 & H3 & H4).
    assert (G : forall k a, S k < length starts -> starts !! S k = Some a -> i < a -> exists b, in_block starts i b).
    { induction k as [|k IH]; intros a Hk Ha Hia.
      - exists 0, 0, a. split; [auto|]. split; [auto|]. lia.
      - destruct (lookup_lt_is_Some_2 starts (S k)) as [c Hc]; [lia|]. destruct (Nat.lt_ge_cases i c) as [Hic|Hic]; [eapply IH; eauto; lia|].
        exists (S k), c, a. auto. }
    eapply (G (length starts - 2) n); [lia| |auto]. replace (S (length starts - 2)) with (length starts - 1) by lia. auto. }
  destruct HE as [b Hb]. exists b. split; [auto|]. intros b' (s' & f' & A1 & A2 & A3). destruct Hb as (s & f & B1 & B2 & B3).
  destruct (Nat.lt_trichotomy b b') as [H|[H|H]]; auto; exfalso.
  - pose proof (layout_mono _ _ HL (S b) b' f s' ltac:(lia) B2 A1). lia.
  - pose proof (layout_mono _ _ HL (S b') b f' s ltac:(lia) A2 B1). lia.
Qed.

(** the parts of a page, in the order they are packed *)
Definition parts {E} (p : page E) : list (list E) :=
  match vect p with Some v => [v] | None => [] end ++ match mat p with Some m => [concat (ga m)] | None => [] end ++
  match wts p with Some v => [v] | None => [] end.
(** v cut at the block starts *)
Definition cut {E} (starts : list nat) (v : list E) (b : nat) : option (list E) :=
  match starts !! b, starts !! S b with Some s, Some f => Some (take (f - s) (drop s v)) | _, _ => None end.
Lemma parts_concat {E} (p : page E) : concat (parts p) = page_values p.
Proof. unfold parts, page_values. destruct (vect p), (mat p), (wts p); cbn; rewrite ?app_nil_r; auto. Qed.
Lemma parts_sizes {E} (p : page E) : full p -> part_sizes p = map length (parts p).
Proof.
  intros (_ & Hm & _ & _). unfold part_sizes, parts, opt_len. destruct (mat p) as [m|] eqn:Em; [rewrite <- (concat_len m) by (apply Hm; auto)|];
  destruct (vect p), (wts p); cbn; auto.
Qed.
Lemma sizes_map {E} (l : list (page E)) : Forall full l -> concat (map part_sizes l) = map length (concat (map parts l)).
Proof. induction 1 as [|p l Hp Hl IH]; [auto|]. cbn [map concat]. rewrite map_app, IH, parts_sizes by auto. auto. Qed.
Lemma full_parts {E} (p : page E) : full p -> parts p <> [] /\ Forall (fun q => q <> []) (parts p).
Proof.
  intros HF. pose proof HF as (Hv & Hm & Hw & Hx). unfold parts. split.
  - destruct (vect p), (mat p), (wts p); cbn; try discriminate. destruct Hx as [Hx|[Hx|Hx]]; congruence.
  - rewrite !List.Forall_app. split; [|split].
    + destruct (vect p); constructor; auto.
    + destruct (mat p) as [m|]; constructor; auto. destruct (Hm m eq_refl) as (W & ? & ?). intros E0. pose proof (concat_len m W) as HC. rewrite E0 in HC. cbn in HC. nia.
    + destruct (wts p); constructor; auto.
Qed.
Lemma starts_sum : forall sizes ctr k a, (ctr :: starts_from ctr sizes) !! k = Some a <-> k <= length sizes /\ a = ctr + sum_list_with (fun x => x) (take k sizes).
Proof.
  induction sizes as [|s sizes IH]; intros ctr [|k] a; cbn.
  - split; [intros [= <-]; lia|intros [_ ->]; f_equal; lia].
  - split; [discriminate|lia].
  - split; [intros [= <-]; lia|intros [_ ->]; f_equal; lia].
  - pose proof (IH (ctr + s) k a) as H. cbn in H. rewrite H. split; intros [H1 H2]; split; lia.
Qed.
Lemma starts_len sizes : forall ctr, length (starts_from ctr sizes) = length sizes.
Proof. induction sizes; intros; cbn; auto. Qed.
Lemma sum_take_le : forall sizes k j, k <= j -> sum_list_with (fun x => x) (take k sizes) <= sum_list_with (fun x => x) (take j sizes).
Proof. induction sizes as [|s l IH]; intros [|k] [|j] H; cbn; try lia. pose proof (IH k j ltac:(lia)). lia. Qed.
Lemma layout_sizes sizes : sizes <> [] -> layout (0 :: starts_from 0 sizes) (sum_list_with (fun x => x) sizes).
Proof.
  intros Hne. assert (HL : length (0 :: starts_from 0 sizes) = S (length sizes)) by (cbn; rewrite starts_len; auto).
  split; [rewrite HL; destruct sizes; cbn; [congruence|lia]|]. split; [auto|]. split.
  - rewrite HL. apply starts_sum. split; [lia|]. replace (S (length sizes) - 1) with (length sizes) by lia. rewrite firstn_all. auto.
  - intros i a b Ha Hb. apply starts_sum in Ha, Hb. destruct Ha as [_ ->], Hb as [_ ->]. pose proof (sum_take_le sizes i (S i) ltac:(lia)). lia.
Qed.
Lemma sum_lengths {E} (l : list (list E)) : sum_list_with (fun x => x) (map length l) = length (concat l).
Proof. induction l as [|x l IH]; cbn; auto. rewrite app_length, IH. auto. Qed.
Lemma cut_parts {E} (l : list (list E)) b : cut (0 :: starts_from 0 (map length l)) (concat l) b = l !! b.
Proof.
  unfold cut. destruct ((0 :: starts_from 0 (map length l)) !! b) as [s|] eqn:Es.
  2:{ symmetry. apply lookup_ge_None_2. apply lookup_ge_None_1 in Es. cbn in Es. rewrite starts_len, map_length in Es. lia. }
  destruct ((0 :: starts_from 0 (map length l)) !! S b) as [f|] eqn:Ef.
  2:{ symmetry. apply lookup_ge_None_2. apply lookup_ge_None_1 in Ef. cbn in Ef. rewrite starts_len, map_length in Ef. lia. }
  apply starts_sum in Es, Ef. destruct Es as [_ ->], Ef as [H ->]. rewrite map_length in H. cbn [Nat.add].
  rewrite !firstn_map, !sum_lengths. destruct (lookup_lt_is_Some_2 l b) as [x Hx]; [lia|]. rewrite Hx.
  rewrite (take_S_r l b x Hx), concat_app, app_length. cbn [concat]. rewrite app_nil_r.
  rewrite <- (take_drop_middle l b x Hx) at 4. rewrite concat_app, drop_app. cbn [concat].
  replace (length (concat (take b l)) + length x - length (concat (take b l))) with (length x) by lia. rewrite take_app. auto.
Qed.

(** C40: for any parameter set without information pages, all of whose pages have parts and no part empty, packed into v: the block starts for
    any kind of chunking run from 0 to the number of parameters, and every parameter is in exactly one block. *)
Lemma pack_length {E} (g : E) (p : page E) more v : Forall full (p :: more) -> Forall (fun q => is_info q = false) (p :: more) ->
  data_pack g (p :: more) None "y" "n" = Ok (Some v) -> v = concat (map page_values (p :: more)).
Proof.
  intros HF HI Hp. assert (HU : used_pages false (p :: more) = p :: more).
  { unfold used_pages. clear -HI. induction HI as [|x l Hx HI IH]; cbn; auto. rewrite Hx. cbn. f_equal. auto. }
  pose proof (C19_pack_lists_all E g false p more) as HC. rewrite !HU in HC. cbn [info_char] in HC. inversion HI as [|? ? Hi _]; subst.
  rewrite HC in Hp; [|auto|rewrite Hi; auto|discriminate]. injection Hp as <-. auto.
Qed.
Theorem C40_layout : forall E (g : E) (ch : ascii) (d : adata E) p more v, pages d = p :: more -> Forall full (pages d) ->
  Forall (fun q => is_info q = false) (pages d) -> data_pack g (pages d) None "y" "n" = Ok (Some v) ->
  layout (block_starts ch d (length v)) (length v) /\
  forall i, i < length v -> exists b, in_block (block_starts ch d (length v)) i b /\ forall b', in_block (block_starts ch d (length v)) i b' -> b' = b.
Proof.
  intros E g ch d p more v Ed HF HI Hp. rewrite Ed in *. assert (Hv := pack_length g p more v HF HI Hp).
  assert (Hpos : 0 < length v). { rewrite Hv. cbn. rewrite app_length. pose proof (full_pos p (Forall_inv HF)). lia. }
  assert (HL : layout (block_starts ch d (length v)) (length v)).
  { unfold block_starts. destruct (ch =? "a")%char.
    - split; [cbn; lia|]. split; [auto|]. split; [auto|]. intros [|[|i]] a b; cbn; intros H1 H2; try discriminate. injection H1 as <-. lia.
    - destruct (ch =? "b")%char.
      + rewrite Ed. assert (HS : concat (map part_sizes (p :: more)) = map length (concat (map parts (p :: more)))).
        { apply sizes_map. auto. }
        rewrite HS. assert (HN : sum_list_with (fun x => x) (map length (concat (map parts (p :: more)))) = length v).
        { rewrite sum_lengths, Hv. f_equal. clear. induction (p :: more) as [|q l IH]; cbn; auto. rewrite concat_app, parts_concat, IH. auto. }
        rewrite <- HN. apply layout_sizes. cbn. destruct (full_parts p (Forall_inv HF)) as [H _]. destruct (parts p); [congruence|discriminate].
      + split; [cbn; rewrite seq_length; lia|]. split; [auto|]. split.
        * cbn [length]. rewrite seq_length. replace (S (length v) - 1) with (S (length v - 1)) by lia. cbn. rewrite lookup_seq_lt by lia. f_equal. lia.
        * intros i a b Ha Hb. assert (Ha' : a = i). { destruct i; cbn in Ha; [congruence|]. apply lookup_seq in Ha. lia. }
          cbn in Hb. apply lookup_seq in Hb. lia. }
  split; [auto|]. apply layout_cover. auto.
Qed.
Print Assumptions C40_layout.
(** C40: chunking 'b': the b-th block of the packed parameters is the b-th of the vectors, matrices (row by row) and weights of the pages. 'a': one
    block, everything.  Any other kind: the b-th block is the b-th parameter alone. *)
Theorem C40_contents : forall E (g : E) (ch : ascii) (d : adata E) p more v, pages d = p :: more -> Forall full (pages d) ->
  Forall (fun q => is_info q = false) (pages d) -> data_pack g (pages d) None "y" "n" = Ok (Some v) -> forall b,
  cut (block_starts ch d (length v)) v b =
    if (ch =? "a")%char then (if b =? 0 then Some v else None)
    else if (ch =? "b")%char then concat (map parts (pages d)) !! b
    else option_map (fun x => [x]) (v !! b).
Proof.
  intros E g ch d p more v Ed HF HI Hp b. rewrite Ed in *. assert (Hv := pack_length g p more v HF HI Hp).
  unfold block_starts. destruct (ch =? "a")%char; [|destruct (ch =? "b")%char].
  - unfold cut. destruct b as [|[|b]]; cbn; auto. rewrite Nat.sub_0_r, drop_0, firstn_all. auto.
  - rewrite Ed. assert (HS : concat (map part_sizes (p :: more)) = map length (concat (map parts (p :: more)))).
    { apply sizes_map. auto. }
    rewrite HS. replace v with (concat (concat (map parts (p :: more)))); [apply cut_parts|].
    rewrite Hv. clear. induction (p :: more) as [|q l IH]; cbn; auto. rewrite concat_app, parts_concat, IH. auto.
  - unfold cut. assert (HQ : forall k, (0 :: seq 1 (length v)) !! k = if k <=? length v then Some k else None).
    { intros [|k]; [auto|]. cbn [lookup list_lookup]. destruct (Nat.leb_spec (S k) (length v)); [apply lookup_seq_lt; lia|apply lookup_seq_ge; lia]. }
    rewrite !HQ. destruct (Nat.leb_spec b (length v)), (Nat.leb_spec (S b) (length v)); try lia.
    + destruct (lookup_lt_is_Some_2 v b) as [x Hx]; [lia|]. rewrite Hx. cbn [option_map]. replace (S b - b) with 1 by lia.
      rewrite (drop_S v x b Hx). auto.
    + rewrite lookup_ge_None_2 by lia. auto.
    + rewrite lookup_ge_None_2 by lia. auto.
Qed.
Print Assumptions C40_contents.
Example C40_nonvacuous : exists (p q : page nat) v, Forall full [p; q] /\ Forall (fun q => is_info q = false) [p; q] /\
  data_pack 0 [p; q] None "y" "n" = Ok (Some v) /\ length v = 5.
Proof.
  exists (vec_page "a" [1; 2]), (vec_page "b" [3; 4; 5]). eexists. split; [|split; [|split; [reflexivity|reflexivity]]].
  - constructor; [apply full_vec_page; discriminate|]. constructor; [apply full_vec_page; discriminate|constructor].
  - constructor; [reflexivity|]. constructor; [reflexivity|constructor].
Qed.
(** C40: information pages (titled in angle brackets) are not packed, but counted as blocks: the last block reaches past the end of the packed
    parameters, and a proposal for it is written out of bounds. *)
Theorem C40_info_refuted : exists (p q : page R) (v : list R) s f, Forall full [p; q] /\ is_info p = false /\
  data_pack 0%R [p; q] None "y" "n" = Ok (Some v) /\ let starts := block_starts "b" (Cons p (Last q)) (length v) in
  starts !! 1 = Some s /\ starts !! 2 = Some f /\ length v < f /\
  forall x, overwrite v s (f - s) x = UB.
Proof.
  exists (Pg (Some [1%R]) None None None (add1 name_alloc "a" "h") None), (Pg (Some [2%R]) None None None (add1 name_alloc "<Info>" "h") None).
  eexists. exists 1, 2. split; [|split; [reflexivity|split; [reflexivity|]]].
  - constructor; [|constructor; [|constructor]]; (split; [intros v [= <-]; discriminate|]; split; [discriminate|]; split; [discriminate|]; left; discriminate).
  - cbv zeta. split; [reflexivity|]. split; [reflexivity|]. split; [cbn; lia|]. intros x. reflexivity.
Qed.
Print Assumptions C40_info_refuted.
