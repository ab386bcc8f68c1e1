(** Proofs for PmfModel.v: compression. *)
From Verif Require Import DataModel DataProofs RmProofs PmfModel.
Local Open Scope list_scope.
Local Open Scope nat_scope.

Lemma existsb_seq_S f n : existsb f (seq 0 (S n)) = existsb f (seq 0 n) || f n.
Proof. rewrite seq_S, existsb_app. cbn. rewrite orb_false_r. auto. Qed.
Lemma existsb_true f n : existsb f (seq 0 n) = true <-> exists k, k < n /\ f k = true.
Proof.
  rewrite existsb_exists. split.
  - intros (k & Hk & Hf). apply in_seq in Hk. exists k. split; [lia|auto].
  - intros (k & Hk & Hf). exists k. split; [apply in_seq; lia|auto].
Qed.

Section Comp.
Context {E : Type}.
Variables (eqd : E -> E -> bool) (nan : E -> bool) (add : E -> E -> E).
Notation jl := (j_loop eqd nan add). Notation il := (i_loop eqd nan add).
Variable p : page E.
Variable N : nat.
Variable e : nat -> nat -> bool.
Hypothesis He : forall i j, i < N -> j < N -> rows_equal eqd nan p i p j = Ok (e i j).
Hypothesis e_sym : forall i j, i < N -> j < N -> e i j = e j i.
Hypothesis e_trans : forall i j k, i < N -> j < N -> k < N -> e i j = true -> e j k = true -> e i k = true.

Definition dup (k : nat) : bool := existsb (fun k' => e k' k) (seq 0 k).
Definition later (w0 : list E) (k : nat) : list E := omap (fun j => if e k j then w0 !! j else None) (seq (S k) (N - S k)).

Lemma jl_spec i : i < N -> forall n a w cut nd, i < a -> a + n = N -> length w = N -> length cut = N ->
  exists wi w' cut' nd', w !! i = Some wi /\ jl p i (seq a n) (w, cut, nd) = Ok (w', cut', nd') /\
  w' = <[i := fold_left add (omap (fun j => match cut !! j with Some false => if e i j then w !! j else None | _ => None end) (seq a n)) wi]> w /\
  length cut' = N /\
  (forall j, j < N -> cut' !! j = option_map (fun c => c || ((a <=? j) && e i j)) (cut !! j)) /\
  nd' = nd || existsb (fun j => match cut !! j with Some c => negb c | None => false end) (seq a n).
Proof.
  intros Hi. induction n as [|n IH]; intros a w cut nd Ha Hn Hw Hc; cbn [seq j_loop].
  - destruct (lookup_lt_is_Some_2 w i ltac:(lia)) as [wi Hwi]. exists wi, w, cut, nd. split; [auto|]. split; [auto|].
    cbn. rewrite list_insert_id by auto. split; [auto|]. split; [auto|]. split; [|destruct nd; auto].
    intros j Hj. destruct (Nat.leb_spec a j); [lia|]. destruct (cut !! j) as [[]|]; auto.
  - destruct (lookup_lt_is_Some_2 cut a ltac:(lia)) as [ca Hca]. rewrite Hca.
    destruct (lookup_lt_is_Some_2 w i ltac:(lia)) as [wi Hwi]. exists wi.
    destruct (lookup_lt_is_Some_2 w a ltac:(lia)) as [wa Hwa].
    assert (forall cut' : list bool, (forall j, j < N -> cut' !! j = option_map (fun c => c || ((S a <=? j) && e i j)) (<[a := ca || e i a]> cut !! j)) ->
       forall j, j < N -> cut' !! j = option_map (fun c => c || ((a <=? j) && e i j)) (cut !! j)) as Hcutgen.
    { intros cut' H j Hj. rewrite H by auto. destruct (decide (j = a)) as [->|Hne].
      - rewrite list_lookup_insert by lia. rewrite Hca. cbn. destruct (Nat.leb_spec (S a) a); [lia|].
        destruct (Nat.leb_spec a a); [|lia]. cbn. destruct ca, (e i a); auto.
      - rewrite list_lookup_insert_ne by auto. destruct (cut !! j); [|auto]. cbn. f_equal. f_equal.
        destruct (Nat.leb_spec (S a) j), (Nat.leb_spec a j); auto; lia. }
    destruct ca.
    + destruct (IH (S a) w cut nd) as (wi' & w' & cut' & nd' & H1 & H2 & H3 & H4 & H5 & H6); try lia.
      rewrite Hwi in H1. injection H1 as <-. exists w', cut', nd'. split; [auto|]. split; [auto|].
      cbn [omap]. cbn. rewrite Hca. split; [auto|]. split; [auto|]. split; [|rewrite H6; auto].
      apply Hcutgen. cbn. rewrite list_insert_id by auto. auto.
    + rewrite He by lia. cbn [rbind]. destruct (e i a) eqn:Eia.
      * rewrite Hwi, Hwa.
        destruct (IH (S a) (<[i := add wi wa]> w) (<[a := true]> cut) true) as (wi' & w' & cut' & nd' & H1 & H2 & H3 & H4 & H5 & H6);
          try (rewrite ?insert_length; lia).
        rewrite list_lookup_insert in H1 by lia. injection H1 as <-. exists w', cut', nd'. split; [auto|]. split; [auto|].
        split; [|split; [auto|]; split].
        -- rewrite H3, list_insert_insert. f_equal. cbn. rewrite Hca, Eia, Hwa. cbn. f_equal.
           apply list_omap_ext. apply Forall2_same_length_lookup_2; [auto|]. intros k x y Hx Hy.
           rewrite Hx in Hy. injection Hy as <-. apply lookup_seq in Hx as [-> Hk].
           rewrite list_lookup_insert_ne by lia. rewrite list_lookup_insert_ne by lia. auto.
        -- apply Hcutgen. cbn. auto.
        -- rewrite H6. cbn. rewrite Hca. cbn. rewrite orb_true_r. auto.
      * destruct (IH (S a) w cut true) as (wi' & w' & cut' & nd' & H1 & H2 & H3 & H4 & H5 & H6); try lia.
        rewrite Hwi in H1. injection H1 as <-. exists w', cut', nd'. split; [auto|]. split; [auto|].
        split; [|split; [auto|]; split].
        -- rewrite H3. f_equal. cbn. rewrite Hca, Eia. auto.
        -- apply Hcutgen. cbn. rewrite list_insert_id by auto. auto.
        -- rewrite H6. cbn. rewrite Hca. cbn. rewrite orb_true_r. auto.
Qed.

Definition inv (w0 : list E) (i : nat) (w : list E) (cut : list bool) : Prop :=
  length w = N /\ length cut = N /\
  (forall j, j < N -> cut !! j = Some (existsb (fun k => e k j) (seq 0 (Nat.min i j)))) /\
  (forall k, w !! k = if (k <? i) && negb (dup k) then option_map (fold_left add (later w0 k)) (w0 !! k) else w0 !! k).

Lemma il_spec w0 : length w0 = N -> forall n i w cut (nd : bool), i + n = N -> inv w0 i w cut ->
  (nd = false -> forall j, i <= j -> j < N -> cut !! j = Some true) ->
  exists w' cut' nd', il p N (seq i n) (w, cut, nd) = Ok (w', cut', nd') /\ inv w0 N w' cut'.
Proof.
  intros Hw0. induction n as [|n IH]; intros i w cut nd Hn Hinv Hnd; cbn [seq i_loop].
  - exists w, cut, nd. split; [auto|]. replace N with i by lia. auto.
  - assert (forall (Hall : forall j, i <= j -> j < N -> cut !! j = Some true), inv w0 N w cut) as Hstop.
    { intros Hall. destruct Hinv as (H1 & H2 & H3 & H4). split; [auto|]. split; [auto|]. split.
      - intros j Hj. rewrite H3 by auto. f_equal. rewrite (Nat.min_r N j) by lia.
        destruct (decide (j <= i)); [f_equal; f_equal; lia|].
        pose proof (H3 j Hj) as Hj'. rewrite Hall in Hj' by lia. rewrite (Nat.min_l i j) in * by lia.
        injection Hj' as Hj'. rewrite <- Hj'. symmetry. symmetry in Hj'. apply existsb_true in Hj' as (k & Hk & Hek).
        apply existsb_true. exists k. split; [lia|auto].
      - intros k. rewrite H4. destruct (decide (k < N)) as [Hk|Hk].
        + destruct (decide (k < i)).
          * destruct (Nat.ltb_spec k i), (Nat.ltb_spec k N); try lia. auto.
          * destruct (Nat.ltb_spec k i), (Nat.ltb_spec k N); try lia. cbn.
            assert (dup k = true) as ->; [|auto]. unfold dup. pose proof (H3 k Hk) as Hc. rewrite Hall in Hc by lia.
            rewrite Nat.min_l in Hc by lia. injection Hc as Hc. symmetry in Hc. apply existsb_true in Hc as (k' & Hk' & Hek).
            apply existsb_true. exists k'. split; [lia|auto].
        + rewrite (proj2 (lookup_ge_None w0 k)) by lia. cbn [option_map]. repeat match goal with |- context[if ?b then _ else _] => destruct b end; auto. }
    destruct nd; cbn [negb].
    2:{ exists w, cut, false. split; [auto|]. apply Hstop. intros; apply Hnd; auto. }
    destruct Hinv as (H1 & H2 & H3 & H4). pose proof (H3 i ltac:(lia)) as Hci. rewrite Hci. rewrite Nat.min_id in *.
    fold (dup i). destruct (dup i) eqn:Edup.
    + (* cut *) apply IH; [lia| |discriminate]. split; [auto|]. split; [auto|]. split.
      * intros j Hj. rewrite H3 by auto. f_equal. destruct (decide (j <= i)); [f_equal; f_equal; lia|].
        rewrite (Nat.min_l i j), (Nat.min_l (S i) j) by lia. rewrite existsb_seq_S.
        destruct (e i j) eqn:Eij; [|rewrite orb_false_r; auto]. rewrite orb_true_r.
        unfold dup in Edup. apply existsb_true in Edup as (k & Hk & Hek). apply existsb_true.
        exists k. split; [auto|]. apply (e_trans k i j); auto; lia.
      * intros k. rewrite H4. destruct (decide (k = i)) as [->|].
        -- rewrite Edup. cbn. rewrite !andb_false_r. auto.
        -- destruct (Nat.ltb_spec k i), (Nat.ltb_spec k (S i)); try lia; auto.
    + destruct (jl_spec i ltac:(lia) n (S i) w cut false) as (wi & w' & cut' & nd' & J1 & J2 & J3 & J4 & J5 & J6); try lia.
      replace (N - S i) with n by lia. rewrite J2. cbn [rbind].
      assert (forall j, i < j -> j < N -> e i j = true -> cut !! j = Some false) as Hfree.
      { intros j Hij Hj Hej. rewrite H3 by auto. f_equal. rewrite Nat.min_l by lia.
        destruct (existsb (fun k => e k j) (seq 0 i)) eqn:Ex; [|auto]. apply existsb_true in Ex as (k & Hk & Hek). cbn beta in Hek.
        exfalso. assert (dup i = true); [|congruence]. apply existsb_true. exists k. split; [auto|]. cbn beta.
        apply (e_trans k j i); auto; try lia. rewrite (e_sym j i) by lia. auto. }
      assert (w !! i = w0 !! i) as Hwi.
      { rewrite H4. destruct (Nat.ltb_spec i i); [lia|]. auto. }
      apply IH; [lia| |].
      * split; [rewrite J3, insert_length; auto|]. split; [auto|]. split.
        -- intros j Hj. rewrite J5, H3 by auto. cbn [option_map]. f_equal. destruct (decide (j <= i)).
           ++ destruct (Nat.leb_spec (S i) j); [lia|]. rewrite orb_false_r. f_equal. f_equal. lia.
           ++ destruct (Nat.leb_spec (S i) j); [|lia]. rewrite (Nat.min_l i j), (Nat.min_l (S i) j) by lia.
              rewrite existsb_seq_S. auto.
        -- intros k. rewrite J3. destruct (decide (k = i)) as [->|Hki].
           ++ rewrite list_lookup_insert by lia. destruct (Nat.ltb_spec i (S i)); [|lia]. rewrite Edup. cbn.
              rewrite <- Hwi, J1. cbn. f_equal. f_equal. unfold later. replace (N - S i) with n by lia.
              apply list_omap_ext. apply Forall2_same_length_lookup_2; [auto|]. intros x y z Hy Hz.
              rewrite Hy in Hz. injection Hz as <-. apply lookup_seq in Hy as [-> Hy].
              destruct (e i (S i + x)) eqn:Ee.
              ** rewrite Hfree by (auto; lia). rewrite H4. destruct (Nat.ltb_spec (S i + x) i); [lia|]. auto.
              ** destruct (cut !! (S i + x)) as [[]|]; auto.
           ++ rewrite list_lookup_insert_ne by auto. rewrite H4.
              destruct (Nat.ltb_spec k i), (Nat.ltb_spec k (S i)); try lia; auto.
      * intros Hf j Hij Hj. rewrite J6 in Hf. cbn [orb] in Hf. rewrite J5 by auto.
        destruct (cut !! j) as [c|] eqn:Ecj; [|apply lookup_ge_None in Ecj; lia]. cbn. f_equal.
        assert (c = true) as ->; [|auto]. destruct c; [auto|]. exfalso.
        assert (existsb (fun j => match cut !! j with Some c => negb c | None => false end) (seq (S i) n) = true); [|congruence].
        apply existsb_exists. exists j. split; [apply in_seq; lia|]. rewrite Ecj. auto.
Qed.
End Comp.
