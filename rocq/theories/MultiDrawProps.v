(** C109: draws from the multinomial and the binomial. *)
From Coq Require Import Reals Lra.
From Verif Require Import Base StatsSpec StatsProofs SearchModel MultiModel MultiProps.
Local Open Scope list_scope.
Local Open Scope R_scope.

(** of n tosses: the multinomial's probability, none for counts that do not sum to n *)
Definition tosses (n : nat) (p : list R) (o : list nat) : R := if decide (list_sum o = n) then mpmf p o else 0.

Lemma binom_one k n : binom_pdf k 1 n = if decide (k = n) then 1 else 0.
Proof.
  unfold binom_pdf, choose. destruct (Nat.ltb_spec n k); [destruct (decide (k = n)); [lia|auto]|]. replace (1 - 1) with 0 by lra. rewrite pow1. destruct (decide (k = n)) as [->|Hn].
  - rewrite Nat.sub_diag. cbn [pow fact INR]. pose proof (fact_pos n). field. lra.
  - rewrite pow_i by lia. lra.
Qed.
Definition terms (p : list R) (o : list nat) : R := product (zip_with (fun q k => q ^ k / INR (fact k)) p o).
Lemma terms_cons x p k o : terms (x :: p) (k :: o) = x ^ k / INR (fact k) * terms p o. Proof. reflexivity. Qed.
(** bins of no probability *)
Lemma zero_bins p : Forall (eq 0) p -> forall o, length o = length p -> (list_sum o = 0%nat -> terms p o = 1) /\ (list_sum o <> 0%nat -> terms p o = 0) /\
  forall N sp sn, rng_loop p N sp sn o = if decide (list_sum o = 0%nat) then 1 else 0.
Proof.
  induction 1 as [|x p <- Hp IH]; intros [|k o] Hl; try discriminate.
  - split; [reflexivity|]. split; [cbn; lia|]. intros. reflexivity.
  - destruct (IH o ltac:(cbn in Hl; lia)) as (A & B & C). rewrite terms_cons. cbn [list_sum fold_right]. fold (list_sum o). destruct k as [|k].
    + replace (0 ^ 0 / INR (fact 0)) with 1 by (cbn; field). split; [intros H; rewrite A by auto; lra|]. split; [intros H; rewrite B by auto; lra|]. intros. cbn [rng_loop]. destruct (Rlt_dec 0 0); [lra|]. rewrite C. change (0 =? 0)%nat with true. cbv iota. rewrite Rmult_1_l. destruct (decide (list_sum o = 0%nat)), (decide (0 + list_sum o = 0)%nat); auto; lia.
    + rewrite pow_i by lia. split; [lia|]. split; [intros _; unfold Rdiv; lra|]. intros. cbn [rng_loop]. destruct (Rlt_dec 0 0); [lra|]. change (S k =? 0)%nat with false. cbv iota. rewrite Rmult_0_l. destruct (decide (S k + list_sum o = 0)%nat); auto; lia.
Qed.
Lemma sum_zero_all p : Forall (Rle 0) p -> Rsum p = 0 -> Forall (eq 0) p.
Proof. induction 1 as [|x p Hx Hp IH]; intros Hs; constructor; rewrite Rsum_cons in Hs; assert (0 <= Rsum p) by (clear - Hp; induction Hp; rewrite ?Rsum_nil, ?Rsum_cons; lra); [lra|apply IH; lra]. Qed.
Lemma loop_law N p : Forall (Rle 0) p -> forall o sp sn, length o = length p -> sp + Rsum p = 1 -> sp < 1 -> (sn <= N)%nat ->
  rng_loop p N sp sn o = if decide (sn + list_sum o = N)%nat then INR (fact (N - sn)) * terms p o / (1 - sp) ^ (N - sn) else 0.
Proof.
  induction 1 as [|x p Hx Hp IH]; intros [|k o] sp sn Hl Hs H1 Hn; try discriminate; [rewrite Rsum_nil in Hs; lra|]. rewrite Rsum_cons in Hs. cbn [length] in Hl.
  assert (0 <= Rsum p) as Hr by (clear - Hp; induction Hp; rewrite ?Rsum_nil, ?Rsum_cons; lra). cbn [rng_loop]. cbn [list_sum fold_right]. fold (list_sum o). rewrite terms_cons. set (m := (N - sn)%nat). pose proof (fact_pos k) as Hfk. pose proof (fact_pos m) as Hfm.
  assert ((1 - sp) ^ m <> 0) as Hpow by (apply pow_nonzero; lra). destruct (Rlt_dec 0 x) as [Hxp|Hx0].
  - destruct (Nat.lt_ge_cases m k) as [Hkm|Hkm].
    { unfold binom_pdf. destruct (Nat.ltb_spec m k); [|lia]. rewrite Rmult_0_l. destruct (decide _); [unfold m in *; lia|auto]. }
    destruct (Rle_lt_or_eq_dec 0 (Rsum p) Hr) as [Hrp|Hr0].
    + rewrite IH by (auto; try lra; unfold m in *; lia). replace (sn + k + list_sum o)%nat with (sn + (k + list_sum o))%nat by lia. destruct (decide (sn + (k + list_sum o) = N)%nat); [|lra]. replace (N - (sn + k))%nat with (m - k)%nat by (unfold m; lia).
      unfold binom_pdf, choose. destruct (Nat.ltb_spec m k); [lia|]. pose proof (fact_pos (m - k)) as Hfd. replace (1 - x / (1 - sp)) with ((1 - (sp + x)) / (1 - sp)) by (field; lra). assert ((1 - (sp + x)) ^ (m - k) <> 0) as Hpow2 by (apply pow_nonzero; lra).
      assert ((x / (1 - sp)) ^ k * ((1 - (sp + x)) / (1 - sp)) ^ (m - k) = x ^ k * (1 - (sp + x)) ^ (m - k) / (1 - sp) ^ m) as E.
      { unfold Rdiv. rewrite !Rpow_mult_distr, !pow_inv. replace ((1 - sp) ^ m) with ((1 - sp) ^ k * (1 - sp) ^ (m - k)) by (rewrite <- pow_add; f_equal; lia). field. split; apply pow_nonzero; lra. }
      transitivity (INR (fact m) / (INR (fact k) * INR (fact (m - k))) * ((x / (1 - sp)) ^ k * ((1 - (sp + x)) / (1 - sp)) ^ (m - k)) * (INR (fact (m - k)) * terms p o / (1 - (sp + x)) ^ (m - k))); [ring|]. rewrite E. field. repeat split; auto; lra.
    + assert (x / (1 - sp) = 1) as -> by (replace (1 - sp) with x by lra; field; lra). rewrite binom_one. destruct (zero_bins p (sum_zero_all p Hp (eq_sym Hr0)) o ltac:(lia)) as (A & B & C). rewrite C. destruct (decide (k = m)) as [->|Hkm'].
      * destruct (decide (list_sum o = 0%nat)) as [Hz|Hz]; destruct (decide (sn + (m + list_sum o) = N)%nat) as [H2|H2]; try (unfold m in *; lia); [|lra]. rewrite A by auto. replace (1 - sp) with x by lra. field. repeat split; auto; try lra; apply pow_nonzero; lra.
      * rewrite Rmult_0_l. destruct (decide (sn + (k + list_sum o) = N)%nat); auto. rewrite B by (unfold m in *; lia). unfold Rdiv. ring.
  - assert (x = 0) as -> by lra. destruct (Nat.eqb_spec k 0) as [->|Hk].
    + rewrite Rplus_0_r, Nat.add_0_r, IH by (auto; lra). rewrite Nat.add_0_l. destruct (decide _); [|lra]. fold m. cbn [pow fact INR]. field. auto.
    + rewrite pow_i by lia. destruct (decide _); unfold Rdiv; ring.
Qed.
(** C109: the counts written by a draw have just the multinomial's probability of n tosses (none, if they do not sum to n), and the parameters are as they were. *)
Theorem C109_multinomial : forall N q o, (2 <= length q)%nat -> Forall (Rle 0) (bins q) -> length o = length (bins q) -> rng (INR N :: q) o = (tosses N (bins q) o, INR N :: q).
Proof.
  intros N q o Hq Hp Hl. unfold rng. cbn [hd]. rewrite INR_IZR_INZ, Int_part_IZR, Nat2Z.id. destruct q as [|a [|b q]]; try (cbn in Hq; lia). cbv zeta. rewrite p_vector_bins. cbn [put_back bins]. fold (bins (a :: b :: q)). f_equal.
  pose proof (bins_sum (a :: b :: q)) as Hbs. rewrite (loop_law N (bins (a :: b :: q)) Hp o 0 0%nat Hl ltac:(lra) ltac:(lra) ltac:(lia)). unfold tosses. rewrite Nat.add_0_l, Nat.sub_0_r. destruct (decide (list_sum o = N)) as [E|]; auto. unfold mpmf. fold (terms (bins (a :: b :: q)) o). rewrite E, Rminus_0_r, pow1. field.
Qed.
Print Assumptions C109_multinomial.
(** C109: so with two bins. *)
Theorem C109_two_bins : forall N q o, 0 <= q <= 1 -> length o = 2%nat -> rng [INR N; q] o = (tosses N (bins [q]) o, [INR N; q]).
Proof.
  intros N q o Hq Hl. unfold rng. cbn [hd]. rewrite INR_IZR_INZ, Int_part_IZR, Nat2Z.id. cbn [put_back]. f_equal. destruct o as [|a [|b [|]]]; try discriminate. unfold tosses, mpmf, binom_pdf, choose, bins. rewrite Rsum_cons, Rsum_nil. cbn [list_sum fold_right zip_with product].
  replace (a + (b + 0))%nat with (a + b)%nat by lia. destruct (Nat.eqb_spec (a + b) N) as [E|E]; destruct (decide (a + b = N)%nat); try lia; auto. destruct (Nat.ltb_spec N a); [lia|]. replace (N - a)%nat with b by lia. rewrite E. replace (1 - (q + 0)) with (1 - q) by lra. replace (1 - (1 - q)) with q by lra.
  pose proof (fact_pos a). pose proof (fact_pos b). field. lra.
Qed.
Print Assumptions C109_two_bins.
(** C109, refuted: a draw leaves the parameters as they are.  An n that is not whole is cut down. *)
Theorem C109_refuted_whole : forall N x q o, 0 < x < 1 -> snd (rng (INR N + x :: q) o) = INR N :: q /\ INR N :: q <> INR N + x :: q.
Proof.
  intros N x q o Hx. assert (Int_part (INR N + x) = Z.of_nat N) as E.
  { destruct (base_Int_part (INR N + x)) as [A B]. rewrite INR_IZR_INZ in A, B. assert (IZR (Int_part (IZR (Z.of_nat N) + x)) < IZR (Z.of_nat N + 1)) as C by (rewrite plus_IZR; lra). assert (IZR (Z.of_nat N - 1) < IZR (Int_part (IZR (Z.of_nat N) + x))) as D by (rewrite minus_IZR; lra). apply lt_IZR in C, D. rewrite INR_IZR_INZ. lia. }
  split; [|intros [= H]; lra]. unfold rng. cbn [hd]. rewrite E, <- INR_IZR_INZ. destruct q as [|a [|b q]]; reflexivity.
Qed.
Print Assumptions C109_refuted_whole.

(** C109: draws of as many counts as a row has cells are each in its row. *)
Theorem C109_rows : forall A (os : list (list A)) block dsize, Forall (fun o => length o = dsize) os -> length block = (length os * dsize)%nat -> draws block dsize 0 os = Ok (concat os).
Proof.
  intros A os block dsize. assert (forall (os pre : list (list A)) (block : list A), Forall (fun o => length o = dsize) os -> Forall (fun o => length o = dsize) pre -> length block = ((length pre + length os) * dsize)%nat -> take (length pre * dsize) block = concat pre ->
    draws block dsize (length pre) os = Ok (concat (pre ++ os))) as H.
  { clear. induction os as [|o os IH]; intros pre block Ho Hpre Hb Ht; cbn [draws].
    - rewrite app_nil_r, <- Ht. rewrite take_ge by (rewrite Hb; cbn; nia). auto.
    - inversion Ho as [|? ? Lo Ho']; subst. cbn [length] in Hb. destruct (Nat.leb_spec (length pre * length o + length o) (length block)) as [_|Hn]; [|nia].
      specialize (IH (pre ++ [o]) (take (length pre * length o) block ++ o ++ drop (length pre * length o + length o) block)). rewrite (app_length pre [o]) in IH. change (length [o]) with 1%nat in IH. rewrite Nat.add_1_r in IH. rewrite IH; auto.
      + rewrite <- app_assoc. auto.
      + apply Forall_app. split; auto.
      + rewrite !app_length, take_length, drop_length. nia.
      + rewrite Ht, concat_app. cbn [concat]. rewrite app_nil_r, app_assoc. rewrite take_app_alt; auto. rewrite app_length, <- Ht, take_length. nia. }
  intros Ho Hb. apply (H os [] block); auto.
Qed.
Print Assumptions C109_rows.
(** C109, refuted: so for apop_binomial, and for an estimated multinomial with fewer tosses than bins.  A draw writes a count for each bin where the row has fewer cells: the last one writes outside the data set. *)
Theorem C109_refuted_overrun : forall A (os : list (list A)) block dsize k, os <> [] -> Forall (fun o => length o = k) os -> (dsize < k)%nat -> length block = (length os * dsize)%nat -> draws block dsize 0 os = UB.
Proof.
  intros A os block dsize k Hne Ho Hk Hb. assert (forall (os : list (list A)) (i : nat) (block : list A), os <> [] -> Forall (fun o => length o = k) os -> length block = ((i + length os) * dsize)%nat -> draws block dsize i os = UB) as H; [|apply H; auto].
  clear - Hk. induction os as [|o os IH]; intros i block Hne Ho Hb; [congruence|]. inversion Ho as [|? ? Lo Ho']; subst. cbn [draws]. cbn [length] in Hb. destruct (Nat.leb_spec (i * dsize + length o) (length block)) as [Hle|]; auto.
  destruct os as [|o' os]; [cbn in Hb; nia|]. apply IH; [discriminate|auto|]. rewrite !app_length, take_length, drop_length. cbn [length] in *. nia.
Qed.
Print Assumptions C109_refuted_overrun.
(** C109, refuted: the one number a binomial draw is documented to give is the count of successes.  It is the count of failures: with a sure success it is zero. *)
Theorem C109_refuted_successes : forall N o, length o = 2%nat -> 0 < fst (rng [INR N; 1] o) -> hd 0%nat o = 0%nat.
Proof.
  intros N o Hl H. rewrite C109_two_bins in H by (auto; lra). cbn [fst] in H. unfold tosses in H. destruct (decide _); [|lra]. destruct o as [|a [|b [|]]]; try discriminate. destruct a; auto. exfalso. unfold mpmf, bins in H. rewrite Rsum_cons, Rsum_nil in H. cbn [zip_with product fold_right] in H. replace (1 - (1 + 0)) with 0 in H by lra. rewrite pow_i in H by lia. unfold Rdiv in H. lra.
Qed.
Print Assumptions C109_refuted_successes.

(** C109: draws one after another leave the parameters and run the loop with n and the bins' probabilities. *)
Definition one_draw (t : nat) : list (nat * rstep) := [(t, ReadN); (t, Turn); (t, Loop); (t, Back)].
Lemma one_draw_ok N q t loc lg : fold_left rstep_run (one_draw t) (Rs (INR N :: q) loc lg) = Rs (INR N :: q) (fun u => if (u =? t)%nat then Z.of_nat N else loc u) (lg ++ [(t, Z.of_nat N, bins q)]).
Proof.
  unfold one_draw. cbn [fold_left rstep_run r_pv r_loc r_log hd]. rewrite Nat.eqb_refl, INR_IZR_INZ, Int_part_IZR, p_vector_bins. unfold bins. cbn [put_back]. reflexivity.
Qed.
Theorem C109_serial : forall N q ts loc lg, let s := fold_left rstep_run (concat (map one_draw ts)) (Rs (INR N :: q) loc lg) in r_pv s = INR N :: q /\ r_log s = lg ++ map (fun t => (t, Z.of_nat N, bins q)) ts.
Proof.
  intros N q ts. induction ts as [|t ts IH]; intros loc lg; cbn [map concat]; [cbn; rewrite app_nil_r; auto|]. rewrite fold_left_app, one_draw_ok. cbv zeta. destruct (IH (fun u => if (u =? t)%nat then Z.of_nat N else loc u) (lg ++ [(t, Z.of_nat N, bins q)])) as [A B]. split; auto. rewrite B, <- app_assoc. reflexivity.
Qed.
Print Assumptions C109_serial.
(** C109, refuted: so for draws by two threads.  If the second begins while the first has the probability of bin zero where n belongs, it tosses no balls; and the model's n is zero from then on. *)
Theorem C109_refuted_threads : forall N q loc lg, (0 < N)%nat -> 0 <= 1 - Rsum q < 1 -> exists trace s, 
  (forall t, map snd (filter (fun e => fst e = t) trace) = if (t <? 2)%nat then [ReadN; Turn; Loop; Back] else []) /\ fold_left rstep_run trace (Rs (INR N :: q) loc lg) = s /\
  hd 0 (r_pv s) = 0 /\ In (1%nat, 0%Z) (map fst (r_log s)).
Proof.
  intros N q loc lg HN Hp. assert (Int_part (1 - Rsum q) = 0%Z) as E0. { destruct (base_Int_part (1 - Rsum q)) as [A B]. assert (IZR (Int_part (1 - Rsum q)) < IZR 1) as C by lra. assert (IZR (-1) < IZR (Int_part (1 - Rsum q))) as D by lra. apply lt_IZR in C, D. lia. }
  eexists [(0%nat, ReadN); (0%nat, Turn); (1%nat, ReadN); (1%nat, Turn); (0%nat, Loop); (1%nat, Loop); (0%nat, Back); (1%nat, Back)], _. split; [intros [|[|t]]; reflexivity|]. split; [reflexivity|].
  cbn [fold_left rstep_run r_pv r_loc r_log hd]. rewrite INR_IZR_INZ, Int_part_IZR. change (0 =? 0)%nat with true. change (1 =? 1)%nat with true. change (0 =? 1)%nat with false. change (1 =? 0)%nat with false. cbv iota. rewrite p_vector_bins. unfold bins at 1 2 3 4 5 6 7. cbn [hd]. rewrite E0. cbn [p_vector put_back hd r_pv]. split; [reflexivity|]. cbn [r_log]. rewrite map_app, map_app. apply in_or_app. right. cbn. auto.
Qed.
Print Assumptions C109_refuted_threads.
Example C109_nonvacuous : exists q o, (2 <= length q)%nat /\ Forall (Rle 0) (bins q) /\ length o = length (bins q) /\ tosses 3 (bins q) o = 3 / 8.
Proof.
  exists [1 / 2; 0], [1; 2; 0]%nat. split; [cbn; lia|]. assert (bins [1 / 2; 0] = [1 / 2; 1 / 2; 0]) as E. { unfold bins. rewrite !Rsum_cons, Rsum_nil. f_equal. lra. } rewrite E. split; [repeat (apply List.Forall_cons || apply List.Forall_nil); lra|]. split; [reflexivity|]. unfold tosses, mpmf. change (decide (list_sum [1; 2; 0]%nat = 3%nat)) with (decide (3 = 3)%nat). destruct (decide (3 = 3)%nat); [|lia]. cbn. field.
Qed.
