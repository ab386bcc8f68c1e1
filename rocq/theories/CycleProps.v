(** C95: the search dimension by dimension.  C96: where the search over the free parameters of a model with fixed parameters starts. *)
From Coq Require Import Reals Lra.
From Verif Require Import Base DiffProps CycleModel.
Local Open Scope list_scope.
Local Open Scope R_scope.

(** one cycle from [b]: parameter after parameter, each from its own value, the others as they are by then *)
Definition one_cycle (sub : nat -> R -> list R -> R) (b : list R) : list R := fold_left (fun c i => <[i := sub i (nth i b 0) c]> c) (seq 0 (length b)) b.
(** a one-dimensional search that does not come out worse than where it starts *)
Definition ascends (ll : list R -> R) (sub : nat -> R -> list R -> R) : Prop := forall i b, (i < length b)%nat -> ll b <= ll (<[i := sub i (nth i b 0) b]> b).

Section c.
  Context (sub : nat -> R -> list R -> R).
  (** the starting point in the settings is where the parameters are *)
  Definition agrees (start : option (list R)) (b : list R) : Prop := forall i, (i < length b)%nat -> sub_start start i = nth i b 0.
  Lemma dims_ok start b0 todo : forall i beta log, agrees start b0 -> length beta = length b0 -> (i + todo = length b0)%nat -> (forall j, (i <= j)%nat -> nth j beta 0 = nth j b0 0) ->
    exists log', dims sub start todo i beta log = (fold_left (fun c i => <[i := sub i (nth i b0 0) c]> c) (seq i todo) beta, log ++ log') /\
      map (fun x => fst (fst x)) log' = seq i todo /\ (forall j x c, In (j, x, c) log' -> x = nth j c 0).
  Proof.
    induction todo as [|todo IH]; intros i beta log Ha Hl Hi Hs; cbn [dims seq fold_left].
    - exists []. rewrite app_nil_r. repeat split; auto. intros j x c [].
    - rewrite (Ha i) by lia. destruct (IH (S i) (<[i := sub i (nth i b0 0) beta]> beta) (log ++ [(i, nth i b0 0, beta)])) as (log' & -> & H1 & H2); auto; [rewrite insert_length; auto|lia| |].
      { intros j Hj. rewrite nth_insert_ne by lia. apply Hs. lia. }
      exists ((i, nth i b0 0, beta) :: log'). rewrite <- app_assoc. split; auto. split; [cbn; f_equal; auto|]. intros j x c [H|H]; [injection H as <- <- <-; symmetry; apply Hs; lia|eauto].
  Qed.
  Lemma fold_len b l : forall c, length (fold_left (fun c i => <[i := sub i (nth i b 0) c]> c) l c) = length c.
  Proof. induction l as [|i l IH]; intros c; cbn [fold_left]; auto. rewrite IH, insert_length. auto. Qed.
  Lemma cycle_len b : length (one_cycle sub b) = length b.
  Proof. apply fold_len. Qed.
  Lemma dims_cycle start beta log : agrees start beta ->
    exists log', dims sub start (length beta) 0 beta log = (one_cycle sub beta, log ++ log') /\ map (fun x => fst (fst x)) log' = seq 0 (length beta) /\ (forall j x c, In (j, x, c) log' -> x = nth j c 0).
  Proof. intros Ha. apply dims_ok; auto. Qed.
  Lemma agrees_self b : agrees (Some b) b. Proof. intros i Hi. auto. Qed.

  Fixpoint times (k n : nat) : list nat := match k with O => [] | S k => times k n ++ seq 0 n end.
  Lemma cycles_ok (ll : list R -> R) (recorded : option R) tol fuel : forall k last start beta log b' k' log', agrees start beta -> map (fun x => fst (fst x)) log = times k (length beta) -> (forall j x c, In (j, x, c) log -> x = nth j c 0) ->
    cycles ll sub recorded tol fuel k last start beta log = Ok (b', k', log') -> length b' = length beta /\ map (fun x => fst (fst x)) log' = times k' (length beta) /\ (forall j x c, In (j, x, c) log' -> x = nth j c 0).
  Proof.
    induction fuel as [|fuel IH]; intros k last start beta log b' k' log' Ha H1 H2 H; cbn [cycles] in H; [discriminate|].
    destruct (dims_cycle start beta log Ha) as (l & Hd & D1 & D2). rewrite Hd in H.
    assert (map (fun x => fst (fst x)) (log ++ l) = times (S k) (length beta)) as E1 by (rewrite map_app, H1, D1; auto).
    assert (forall j x c, In (j, x, c) (log ++ l) -> x = nth j c 0) as E2 by (intros j x c Hin; apply in_app_or in Hin as [Hin|Hin]; eauto).
    destruct (match last with None => true | Some l0 => _ end).
    - specialize (IH (S k) (Some (get_ll ll recorded (one_cycle sub beta))) (Some (one_cycle sub beta)) (one_cycle sub beta) (log ++ l) b' k' log' (agrees_self _)). rewrite cycle_len in IH. apply IH; auto.
    - injection H as <- <- <-. rewrite cycle_len. auto.
  Qed.
End c.
Definition starting (start : option (list R)) (n : nat) : list R := match start with None => replicate n 1 | Some l => take n l end.
Lemma starting_ok start n : (forall l, start = Some l -> (n <= length l)%nat) -> length (starting start n) = n /\ agrees start (starting start n).
Proof.
  intros H. destruct start as [l|]; cbn [starting].
  - specialize (H l eq_refl). split; [rewrite take_length; lia|]. intros i Hi. rewrite take_length in Hi. cbn. rewrite <- (take_drop n l) at 1. rewrite app_nth1; auto. rewrite take_length. lia.
  - split; [apply replicate_length|]. intros i Hi. rewrite replicate_length in Hi. cbn. symmetry. apply (nth_lookup_Some (replicate n 1) i 0 1). apply lookup_replicate. auto.
Qed.
Lemma dim_cycle_is ll sub recorded tol fuel start n : (forall l, start = Some l -> (n <= length l)%nat) ->
  dim_cycle ll sub recorded tol fuel start n = cycles ll sub recorded tol fuel 0 None start (starting start n) [].
Proof. intros H. unfold dim_cycle, starting. destruct start as [l|]; auto. destruct (Nat.leb_spec n (length l)); auto. specialize (H l eq_refl). lia. Qed.

(** C95: whole cycles: in each cycle each parameter is searched over once, in order, each search starting from where that parameter is. *)
Theorem C95_order : forall ll sub recorded tol fuel start n b k log, dim_cycle ll sub recorded tol fuel start n = Ok (b, k, log) ->
  length b = n /\ map (fun x => fst (fst x)) log = times k n /\ forall i x c, In (i, x, c) log -> x = nth i c 0.
Proof.
  intros ll sub recorded tol fuel start n b k log H. assert (forall l, start = Some l -> (n <= length l)%nat) as Hl.
  { intros l ->. cbn [dim_cycle] in H. destruct (Nat.leb_spec n (length l)); [lia|discriminate]. }
  destruct (starting_ok start n Hl) as [S1 S2]. rewrite dim_cycle_is in H by auto. destruct (cycles_ok sub ll recorded tol fuel 0 None start (starting start n) [] b k log S2) as (A & B & C); auto; [intros j x c []|].
  rewrite S1 in *. auto.
Qed.
Print Assumptions C95_order.

Lemma fold_up ll sub b l : ascends ll sub -> List.NoDup l -> (forall i, In i l -> (i < length b)%nat) -> forall c, length c = length b -> (forall i, In i l -> nth i c 0 = nth i b 0) ->
  ll c <= ll (fold_left (fun c i => <[i := sub i (nth i b 0) c]> c) l c).
Proof.
  intros Ha Hn Hin. induction l as [|i l IH]; intros c Hc Hs; cbn [fold_left]; [lra|]. inversion Hn; subst. eapply Rle_trans; [|apply IH; auto].
  - rewrite <- (Hs i) by (cbn; auto). apply Ha. rewrite Hc. apply Hin. cbn. auto.
  - intros j Hj. apply Hin. cbn. auto.
  - rewrite insert_length. auto.
  - intros j Hj. rewrite nth_insert_ne; [apply Hs; cbn; auto|]. intros ->. auto.
Qed.
Lemma cycle_up ll sub b : ascends ll sub -> ll b <= ll (one_cycle sub b).
Proof. intros Ha. apply fold_up; auto; [apply seq_NoDup|]. intros i Hi. apply in_seq in Hi. lia. Qed.
Lemma cycles_end ll sub tol M n : ascends ll sub -> 0 < tol -> (forall b, length b = n -> ll b <= M) -> forall fuel k start beta log, agrees start beta -> length beta = n ->
  (M - ll beta < INR fuel * tol) -> exists b' b k' log', cycles ll sub None tol (S fuel) k (Some (ll beta)) start beta log = Ok (b, k', log') /\ (k < k')%nat /\ length b' = n /\ ll beta <= ll b' /\ b = one_cycle sub b' /\ ll b' <= ll b <= ll b' + tol.
Proof.
  intros Ha Ht HM. induction fuel as [|fuel IH]; intros k start beta log Hag Hl Hf.
  - exfalso. specialize (HM beta Hl). cbn in Hf. lra.
  - set (F := S fuel). cbn [cycles]. destruct (dims_cycle sub start beta log Hag) as (l & -> & _). cbn [get_ll]. pose proof (cycle_up ll sub beta Ha) as Hup. destruct (Rlt_dec tol _) as [Hgo|Hst].
    + rewrite Rabs_pos_eq in Hgo by lra. destruct (IH (S k) (Some (one_cycle sub beta)) (one_cycle sub beta) (log ++ l) (agrees_self _)) as (b' & b & k' & log' & E & A & B & C & D); [rewrite cycle_len; auto|rewrite S_INR in Hf; lra|].
      exists b', b, k', log'. split; auto. split; [lia|]. split; auto. split; [lra|auto].
    + exists beta, (one_cycle sub beta), (S k), (log ++ l). split; auto. split; [lia|]. split; auto. split; [lra|]. split; auto. rewrite Rabs_pos_eq in Hst by lra. lra.
Qed.
(** C95: if no one-dimensional search comes out worse than it starts, and the log likelihood is bounded, the search ends, after two cycles or more; the log likelihood has not gone down; one more cycle
    through the dimensions, the last one made, has gained at most the tolerance. *)
Theorem C95_ends : forall ll sub tol start n M, ascends ll sub -> 0 < tol -> (forall b, length b = n -> ll b <= M) -> (forall l, start = Some l -> (n <= length l)%nat) ->
  exists fuel b' b k log, dim_cycle ll sub None tol fuel start n = Ok (b, k, log) /\ (2 <= k)%nat /\ ll (starting start n) <= ll b /\ length b' = n /\ b = one_cycle sub b' /\ ll b' <= ll b <= ll b' + tol.
Proof.
  intros ll sub tol start n M Ha Ht HM Hl. destruct (starting_ok start n Hl) as [S1 S2]. set (b0 := starting start n) in *. set (b1 := one_cycle sub b0).
  destruct (archimed ((M - ll b1) / tol)) as [Har _]. assert (exists f, M - ll b1 < INR f * tol) as [f Hf].
  { exists (Z.to_nat (up ((M - ll b1) / tol))). pose proof (HM b1 ltac:(unfold b1; rewrite cycle_len; auto)) as Hb1. assert (0 <= (M - ll b1) / tol) by (apply Rmult_le_pos; [lra|apply Rlt_le, Rinv_0_lt_compat; lra]).
    rewrite INR_IZR_INZ, Z2Nat.id by (apply le_IZR; lra). apply (Rmult_lt_compat_r tol) in Har; auto. unfold Rdiv in Har. rewrite Rmult_assoc, Rinv_l, Rmult_1_r in Har by lra. lra. }
  destruct (dims_cycle sub start b0 [] S2) as (l & Hd & _).
  destruct (cycles_end ll sub tol M n Ha Ht HM f 1 (Some b1) b1 ([] ++ l) (agrees_self _)) as (b' & b & k & log & E & A & B & C & D & G); auto; [unfold b1; rewrite cycle_len; auto|].
  exists (S (S f)), b', b, k, log. rewrite dim_cycle_is by auto. fold b0. cbn [cycles]. rewrite Hd. cbn [get_ll]. split; [exact E|]. split; [lia|]. pose proof (cycle_up ll sub b0 Ha) as Hu. fold b1 in Hu. split; [lra|auto].
Qed.
Print Assumptions C95_ends.

(** C95, refuted: the cycles go on until the gain is small.  If the model has a log likelihood on record (it was estimated before, or copied from one that was), there are two cycles, whatever is gained. *)
Theorem C95_refuted_recorded : forall ll sub l tol fuel start n, 0 < tol -> (2 <= fuel)%nat -> (forall l, start = Some l -> (n <= length l)%nat) ->
  exists log, dim_cycle ll sub (Some l) tol fuel start n = Ok (one_cycle sub (one_cycle sub (starting start n)), 2%nat, log).
Proof.
  intros ll sub l tol fuel start n Ht Hf Hl. destruct (starting_ok start n Hl) as [S1 S2]. set (b0 := starting start n) in *. rewrite dim_cycle_is by auto. fold b0.
  destruct fuel as [|[|fuel]]; try lia. cbn [cycles]. destruct (dims_cycle sub start b0 [] S2) as (l1 & -> & _). cbn [get_ll].
  destruct (dims_cycle sub (Some (one_cycle sub b0)) (one_cycle sub b0) ([] ++ l1) (agrees_self _)) as (l2 & -> & _). destruct (Rlt_dec tol _) as [H|H]; [|eauto].
  exfalso. replace (l - l) with 0 in H by ring. rewrite Rabs_R0 in H. lra.
Qed.
Print Assumptions C95_refuted_recorded.
(** refuted: it ends in any case.  max_iterations bounds each search over one dimension, not the cycles; a likelihood without bound is followed forever *)
Theorem C95_refuted_unbounded : forall fuel start, (forall l, start = Some l -> (1 <= length l)%nat) ->
  ascends (fun b => nth 0 b 0) (fun _ x _ => x + 1) /\ dim_cycle (fun b => nth 0 b 0) (fun _ x _ => x + 1) None (1 / 2) fuel start 1 = Fuel.
Proof.
  intros fuel start Hl. split.
  - intros i b Hi. destruct i as [|i]; [rewrite nth_insert_eq by auto; lra|rewrite nth_insert_ne by lia; lra].
  - destruct (starting_ok start 1 Hl) as [S1 S2]. rewrite dim_cycle_is by auto. revert S1 S2. generalize (starting start 1) as b. intros b S1 S2.
    assert (forall k last start b log, length b = 1%nat -> agrees start b -> (forall l, last = Some l -> l = nth 0 b 0) -> cycles (fun b => nth 0 b 0) (fun _ x _ => x + 1) None (1 / 2) fuel k last start b log = Fuel) as H.
    { clear. induction fuel as [|fuel IH]; intros k last start b log Hb Ha Hla; cbn [cycles]; auto. destruct (dims_cycle (fun _ x _ => x + 1) start b log Ha) as (l & -> & _). cbn [get_ll].
      assert (nth 0 (one_cycle (fun _ x _ => x + 1) b) 0 = nth 0 b 0 + 1) as E. { destruct b as [|x [|]]; try discriminate. reflexivity. }
      rewrite E. destruct last as [q|].
      - rewrite (Hla q eq_refl). destruct (Rlt_dec (1 / 2) _) as [H|H].
        + apply IH; [rewrite cycle_len; auto|apply agrees_self|intros l0 [= <-]; auto].
        + exfalso. apply H. replace (nth 0 b 0 + 1 - nth 0 b 0) with 1 by ring. rewrite Rabs_R1. lra.
      - apply IH; [rewrite cycle_len; auto|apply agrees_self|intros l0 [= <-]; auto]. }
    apply H; auto. discriminate.
Qed.
Print Assumptions C95_refuted_unbounded.
(** two parameters, exact searches: -(x-y)^2 - y^2 *)
Example C95_nonvacuous : exists ll sub, ascends ll sub /\ (forall b, ll b <= 0) /\ ll [1; 1] < ll (one_cycle sub [1; 1]).
Proof.
  exists (fun b => - (nth 0 b 0 - nth 1 b 0) ^ 2 - nth 1 b 0 ^ 2), (fun i _ b => match i with O => nth 1 b 0 | S O => nth 0 b 0 / 2 | _ => 0 end). split; [|split].
  - intros i b Hi. destruct i as [|[|i]].
    + rewrite nth_insert_eq, nth_insert_ne by (auto; lia). pose proof (pow2_ge_0 (nth 0 b 0 - nth 1 b 0)). nra.
    + rewrite nth_insert_eq, nth_insert_ne by (auto; lia). pose proof (pow2_ge_0 (nth 1 b 0 - nth 0 b 0 / 2)). nra.
    + rewrite !nth_insert_ne by lia. lra.
  - intros b. pose proof (pow2_ge_0 (nth 0 b 0 - nth 1 b 0)). pose proof (pow2_ge_0 (nth 1 b 0)). lra.
  - unfold one_cycle. cbn. lra.
Qed.

(** C96: with one free parameter, the search starts at its value in the starting point given. *)
Theorem C96_one : forall start i, fix_start start [i] = [nth i start 0].
Proof. reflexivity. Qed.
Print Assumptions C96_one.
(** C96, refuted: so with more than one.  The second free parameter starts at its own position, the third at minus one, the fourth at zero, whatever the starting point. *)
Theorem C96_refuted : forall start i j rest, (forall k, (0 < k < length (fix_start start (i :: j :: rest)))%nat -> (k < 4)%nat -> nth k (fix_start start (i :: j :: rest)) 0 = nth (k - 1) [INR j; -1; 0] 0) /\
  length (fix_start start (i :: j :: rest)) = S (S (length rest)) /\ nth 0 (fix_start start (i :: j :: rest)) 0 = nth i start 0.
Proof.
  intros start i j rest. unfold fix_start, fix_table. cbn [map concat app drop length take]. split; [|split].
  - intros k Hk Hk4. cbn [length] in Hk. destruct k as [|[|[|[|k]]]]; try lia; cbn [nth Nat.sub].
    + auto.
    + destruct rest as [|a rest]; [cbn in Hk; lia|]. auto.
    + destruct rest as [|a [|b rest]]; [cbn in Hk; lia|cbn in Hk; lia|]. auto.
  - cbn [length]. do 2 f_equal. rewrite take_length. cbn [length]. rewrite Nat.min_l; auto. assert (forall l, (length l <= length (concat (map (fun i => [INR i; (-1)%R; 0%R; nth i start 0%R]) l)))%nat) as H by (induction l; cbn; lia). specialize (H rest). lia.
  - auto.
Qed.
Print Assumptions C96_refuted.
Example C96_nonvacuous : fix_start [5; 6; 7] [0%nat; 2%nat] = [5; INR 2].
Proof. reflexivity. Qed.
