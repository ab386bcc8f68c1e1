(** C64: the two-sample Smirnov distribution counts lattice paths; C65: the one-sample Kolmogorov distribution is Marsaglia, Tsang and Wang's matrix
    formula (apop_hist.m4.c:94-212). *)
From Coq Require Import Reals Lra.
From Verif Require Import DataModel StatsModel StatsSpec StatsProofs ConvModel LikeModel HistModel HistProps.
Local Open Scope list_scope.
Local Open Scope R_scope.

(** ---------- C64: specification ---------- *)
(** a path is a list of steps: true is one observation of the first sample, false one of the second *)
Definition ups (p : list bool) : nat := length (List.filter (fun b => b) p).
Definition acrosses (p : list bool) : nat := length (List.filter negb p).
(** at each of its points (i,j) the path has |i/m - j/n| below the bound *)
Definition stays (near : nat -> nat -> Prop) (p : list bool) : Prop := forall k, (k <= length p)%nat -> near (ups (take k p)) (acrosses (take k p)).

Fixpoint bl (k : nat) : list (list bool) := match k with O => [[]] | S k' => map (fun p => p ++ [true]) (bl k') ++ map (fun p => p ++ [false]) (bl k') end.
Lemma bl_in k : forall p, In p (bl k) <-> length p = k.
Proof.
  induction k as [|k IH]; intros p; cbn [bl].
  - split; [intros [<-|[]]; auto|]. intros H. left. symmetry. apply length_zero_iff_nil. auto.
  - rewrite in_app_iff, !in_map_iff. split.
    + intros [(q & <- & Hq)|(q & <- & Hq)]; apply IH in Hq; rewrite app_length; cbn; lia.
    + intros H. destruct p as [|a p0] using rev_ind; [discriminate|]. rewrite app_length in H. cbn in H. assert (Hl : length p0 = k) by lia. destruct a; [left|right]; exists p0; rewrite IH; auto.
Qed.
Lemma bl_nodup k : NoDup (bl k).
Proof.
  induction k as [|k IH]; cbn [bl]; [constructor; [intros H; inversion H|constructor]|]. apply NoDup_app. split; [|split].
  - apply (NoDup_fmap_2_strong _ _); auto. intros x y _ _ E. apply app_inj_tail in E. tauto.
  - intros p Hp Hq. apply elem_of_list_fmap in Hp as (x & -> & _), Hq as (y & E & _). apply app_inj_tail in E as [_ ?]. discriminate.
  - apply (NoDup_fmap_2_strong _ _); auto. intros x y _ _ E. apply app_inj_tail in E. tauto.
Qed.
Lemma ups_snoc p b : ups (p ++ [b]) = (ups p + if b then 1 else 0)%nat.
Proof. unfold ups. rewrite List.filter_app, app_length. destruct b; cbn; lia. Qed.
Lemma across_snoc p b : acrosses (p ++ [b]) = (acrosses p + if b then 0 else 1)%nat.
Proof. unfold acrosses. rewrite List.filter_app, app_length. destruct b; cbn; lia. Qed.
Lemma ups_across p : (ups p + acrosses p = length p)%nat.
Proof. unfold ups, acrosses. induction p as [|[] p IH]; cbn in *; lia. Qed.
Lemma stays_snoc near p b : stays near (p ++ [b]) <-> stays near p /\ near (ups (p ++ [b])) (acrosses (p ++ [b])).
Proof.
  unfold stays. rewrite app_length. cbn [length]. split.
  - intros H. split.
    + intros k Hk. specialize (H k ltac:(lia)). rewrite take_app_le in H by lia. auto.
    + specialize (H (length p + 1)%nat ltac:(lia)). rewrite take_ge in H by (rewrite app_length; cbn; lia). auto.
  - intros [H1 H2] k Hk. destruct (decide (k <= length p)%nat).
    + rewrite take_app_le by lia. auto.
    + rewrite take_ge by (rewrite app_length; cbn; lia). auto.
Qed.
(** ---------- counting ---------- *)
Section count.
  Variable nearb : nat -> nat -> bool.
  Fixpoint staysb_rev (p : list bool) : bool := nearb (ups (rev p)) (acrosses (rev p)) && match p with [] => true | _ :: r => staysb_rev r end.
  Definition staysb (p : list bool) : bool := staysb_rev (rev p).
  Lemma staysb_snoc p b : staysb (p ++ [b]) = nearb (ups (p ++ [b])) (acrosses (p ++ [b])) && staysb p.
  Proof. unfold staysb. rewrite rev_app_distr. cbn [rev app staysb_rev]. rewrite rev_involutive. auto. Qed.
  Lemma staysb_nil : staysb [] = nearb 0 0.
  Proof. unfold staysb. cbn. apply andb_true_r. Qed.
  Lemma staysb_ok p : staysb p = true <-> stays (fun i j => nearb i j = true) p.
  Proof.
    induction p as [|b p IH] using rev_ind.
    - rewrite staysb_nil. split; [intros H k Hk; cbn in Hk; replace k with 0%nat by lia; auto|]. intros H. apply (H 0%nat). cbn. lia.
    - rewrite staysb_snoc, stays_snoc, andb_true_iff, IH. tauto.
  Qed.
  Definition inb (i : nat) (p : list bool) : bool := (ups p =? i)%nat && staysb p.
  (** the number of paths to (i,j) *)
  Definition cnt (i j : nat) : nat := length (List.filter (inb i) (bl (i + j))).
  Lemma filter_len_map {A B} (f : A -> B) (g : B -> bool) l : length (List.filter g (map f l)) = length (List.filter (fun x => g (f x)) l).
  Proof. induction l as [|a l IH]; cbn; auto. destruct (g (f a)); cbn; auto. Qed.
  Lemma filter_len_ext {A} (f g : A -> bool) l : (forall x, In x l -> f x = g x) -> length (List.filter f l) = length (List.filter g l).
  Proof. induction l as [|a l IH]; cbn; intros H; auto. rewrite (H a) by auto. destruct (g a); cbn; rewrite IH; auto. Qed.
  Lemma filter_len_none {A} (f : A -> bool) l : (forall x, In x l -> f x = false) -> length (List.filter f l) = 0%nat.
  Proof. induction l as [|a l IH]; cbn; intros H; auto. rewrite (H a) by auto. auto. Qed.
  Lemma cnt_00 : cnt 0 0 = if nearb 0 0 then 1%nat else 0%nat.
  Proof. unfold cnt. cbn [bl Nat.add List.filter]. unfold inb. rewrite staysb_nil. change (ups []) with 0%nat. cbn. destruct (nearb 0 0); auto. Qed.
  Lemma part_t i j k : (S i + j = S k)%nat -> length (List.filter (fun p => inb (S i) (p ++ [true])) (bl k)) = if nearb (S i) j then length (List.filter (inb i) (bl k)) else 0%nat.
  Proof.
    intros E. assert (G : forall p, In p (bl k) -> inb (S i) (p ++ [true]) = nearb (S i) j && inb i p).
    { intros p Hp. apply bl_in in Hp. pose proof (ups_across p). unfold inb. rewrite staysb_snoc, ups_snoc, across_snoc. cbn iota. rewrite Nat.add_0_r, Nat.add_1_r.
      change (S (ups p) =? S i)%nat with (ups p =? i)%nat. destruct (Nat.eqb_spec (ups p) i) as [Hu|]; [|rewrite andb_false_r; auto]. rewrite Hu. replace (acrosses p) with j by lia. cbn. destruct (nearb (S i) j); auto. }
    destruct (nearb (S i) j); [apply filter_len_ext|apply filter_len_none]; intros p Hp; rewrite G; auto.
  Qed.
  Lemma part_f i j k : (i + S j = S k)%nat -> length (List.filter (fun p => inb i (p ++ [false])) (bl k)) = if nearb i (S j) then length (List.filter (inb i) (bl k)) else 0%nat.
  Proof.
    intros E. assert (G : forall p, In p (bl k) -> inb i (p ++ [false]) = nearb i (S j) && inb i p).
    { intros p Hp. apply bl_in in Hp. pose proof (ups_across p). unfold inb. rewrite staysb_snoc, ups_snoc, across_snoc. cbn iota. rewrite Nat.add_0_r, Nat.add_1_r.
      destruct (Nat.eqb_spec (ups p) i) as [Hu|]; [|rewrite andb_false_r; auto]. rewrite Hu. replace (acrosses p) with j by lia. cbn. destruct (nearb i (S j)); auto. }
    destruct (nearb i (S j)); [apply filter_len_ext|apply filter_len_none]; intros p Hp; rewrite G; auto.
  Qed.
  Lemma cnt_0S j : cnt 0 (S j) = if nearb 0 (S j) then cnt 0 j else 0%nat.
  Proof.
    unfold cnt. cbn [Nat.add bl]. rewrite List.filter_app, app_length, !filter_len_map.
    rewrite (filter_len_none (fun p => inb 0 (p ++ [true]))). { cbn [Nat.add]. apply (part_f 0 j j). auto. }
    intros p _. unfold inb. rewrite ups_snoc. cbn iota. rewrite Nat.add_1_r. auto.
  Qed.
  Lemma cnt_S0 i : cnt (S i) 0 = if nearb (S i) 0 then cnt i 0 else 0%nat.
  Proof.
    unfold cnt. rewrite !Nat.add_0_r. cbn [bl]. rewrite List.filter_app, app_length, !filter_len_map.
    rewrite (filter_len_none (fun p => inb (S i) (p ++ [false]))). { rewrite Nat.add_0_r. apply part_t. lia. }
    intros p Hp. apply bl_in in Hp. pose proof (ups_across p). unfold inb. rewrite ups_snoc. cbn iota. destruct (Nat.eqb_spec (ups p + 0) (S i)); [lia|auto].
  Qed.
  Lemma cnt_SS i j : cnt (S i) (S j) = if nearb (S i) (S j) then (cnt i (S j) + cnt (S i) j)%nat else 0%nat.
  Proof.
    unfold cnt. replace (S i + j)%nat with (i + S j)%nat by lia. change (bl (S i + S j)) with (map (fun p => p ++ [true]) (bl (i + S j)) ++ map (fun p => p ++ [false]) (bl (i + S j))).
    rewrite List.filter_app, app_length, !filter_len_map. rewrite (part_t i (S j)) by lia. rewrite (part_f (S i) j) by lia. destruct (nearb (S i) (S j)); auto.
  Qed.
End count.
(** all paths: (i+j)! = i! j! times their number *)
Definition cnt_all (i j : nat) : nat := cnt (fun _ _ => true) i j.
Lemma cnt_all_fact : forall s i j, (i + j = s)%nat -> (cnt_all i j * (fact i * fact j))%nat = fact s.
Proof.
  induction s as [|s IH]; intros i j E.
  - destruct i, j; try lia. reflexivity.
  - unfold cnt_all in *. destruct i as [|i], j as [|j]; try lia.
    + rewrite cnt_0S. specialize (IH 0%nat j ltac:(lia)). cbn [fact] in *. assert (j = s) as -> by lia. rewrite Nat.mul_1_l in *. rewrite <- IH at 2. nia.
    + rewrite cnt_S0. specialize (IH i 0%nat ltac:(lia)). assert (i = s) as -> by lia. change (fact 0) with 1%nat in *. cbn [fact]. rewrite Nat.mul_1_r in *. rewrite <- IH at 2. nia.
    + rewrite cnt_SS. pose proof (IH i (S j) ltac:(lia)) as H1. pose proof (IH (S i) j ltac:(lia)) as H2. cbn [fact] in *. assert (s = S (i + j)) as -> by lia. nia.
Qed.

(** ---------- the computation ---------- *)
Section compute.
  Variables (q : R) (m n : nat).
  Hypothesis Hm : (1 <= m)%nat.
  Hypothesis Hn : (1 <= n)%nat.
  Definition nb (i j : nat) : bool := negb (above (Rabs (INR i / INR m - INR j / INR n)) q).
  Lemma posm : 0 < INR m. Proof. apply lt_0_INR. lia. Qed.
  Lemma posn : 0 < INR n. Proof. apply lt_0_INR. lia. Qed.
  Lemma nb_0 j : above (INR j / INR n) q = negb (nb 0 j).
  Proof.
    unfold nb. rewrite negb_involutive. cbn [INR]. unfold Rdiv. rewrite Rmult_0_l. rewrite Rabs_left1; [f_equal; lra|]. pose proof (pos_INR j). pose proof posn as P. apply Rinv_0_lt_compat in P.
    assert (0 <= INR j * / INR n) by (apply Rmult_le_pos; lra). lra.
  Qed.
  Lemma nb_c i : above (INR i / INR m) q = negb (nb i 0).
  Proof.
    unfold nb. rewrite negb_involutive. cbn [INR]. unfold Rdiv. rewrite Rmult_0_l, Rminus_0_r. rewrite Rabs_right; auto. pose proof (pos_INR i). pose proof posm as P. apply Rinv_0_lt_compat in P.
    assert (0 <= INR i * / INR m) by (apply Rmult_le_pos; lra). lra.
  Qed.
  Lemma nb_mono j : nb 0 (S j) = true -> nb 0 j = true.
  Proof.
    intros H. apply (f_equal negb) in H. rewrite <- nb_0 in H. assert (G : above (INR j / INR n) q = false); [|rewrite nb_0 in G; destruct (nb 0 j); auto].
    unfold above in *. destruct (Rlt_dec q (INR (S j) / INR n)) as [|Hx]; [discriminate|]. destruct (Rlt_dec q (INR j / INR n)) as [Hy|]; auto. exfalso. apply Hx.
    eapply Rlt_trans; [exact Hy|]. apply Rmult_lt_compat_r; [apply Rinv_0_lt_compat, posn|]. rewrite S_INR. lra.
  Qed.
  Lemma cnt_row0 j : cnt nb 0 j = if nb 0 j then 1%nat else 0%nat.
  Proof.
    induction j as [|j IH]; [apply cnt_00|]. rewrite cnt_0S, IH. destruct (nb 0 (S j)) eqn:E; auto. rewrite (nb_mono j E). auto.
  Qed.
  Fixpoint W (i : nat) : R := match i with O => 1 | S i' => INR i / (INR i + INR n) * W i' end.
  Definition row (i : nat) : list R := map (fun j => W i * INR (cnt nb i j)) (seq 0 (n + 1)).
  Lemma u0_row : u0 q n = row 0.
  Proof.
    unfold u0, row. apply map_ext. intros j. rewrite nb_0, cnt_row0. cbn [W]. destruct (nb 0 j); cbn; lra.
  Qed.
  Lemma rest_row i k : forall j, u_rest q m n (S i) (INR (S i) / (INR (S i) + INR n)) (S j) (map (fun j => W i * INR (cnt nb i j)) (seq (S j) k)) (W (S i) * INR (cnt nb (S i) j)) =
    map (fun j => W (S i) * INR (cnt nb (S i) j)) (seq (S j) k).
  Proof.
    induction k as [|k IH]; intros j; cbn [seq map u_rest]; auto.
    set (y := if above _ _ then _ else _). assert (Ey : y = W (S i) * INR (cnt nb (S i) (S j))); [|rewrite Ey, IH; auto].
    unfold y. rewrite cnt_SS. change (above (Rabs (INR (S i) / INR m - INR (S j) / INR n)) q) with (above (Rabs (INR (S i) / INR m - INR (S j) / INR n)) q).
    assert (En : above (Rabs (INR (S i) / INR m - INR (S j) / INR n)) q = negb (nb (S i) (S j))) by (unfold nb; rewrite negb_involutive; auto). rewrite En. clear.
    destruct (nb (S i) (S j)); cbn [negb]; [|cbn [INR]; lra]. rewrite plus_INR. cbn [W]. ring.
  Qed.
  Lemma step_row i : u_step q m n (S i) (row i) = row (S i).
  Proof.
    unfold u_step, row. rewrite Nat.add_1_r. cbn [seq map]. rewrite nb_c.
    set (y := if negb _ then _ else _). assert (Ey : y = W (S i) * INR (cnt nb (S i) 0)).
    { unfold y. rewrite cnt_S0. destruct (nb (S i) 0); cbn [negb]; [|cbn [INR]; lra]. cbn [W]. ring. }
    rewrite Ey. rewrite rest_row. auto.
  Qed.
  Lemma all_rows k : fold_left (fun u i => u_step q m n i u) (seq 1 k) (u0 q n) = row k.
  Proof. induction k as [|k IH]; [apply u0_row|]. rewrite seq_S, fold_left_app, IH. cbn [fold_left Nat.add]. apply step_row. Qed.
  Lemma W_all i : W i * INR (cnt_all i n) = 1.
  Proof.
    assert (F : forall k, INR (fact k) <> 0) by apply INR_fact_neq_0.
    assert (G : W i * INR (fact (i + n)) = INR (fact i) * INR (fact n)).
    { induction i as [|i IH]; [cbn; lra|]. cbn [W]. change (fact (S i + n)) with ((S (i + n)) * fact (i + n))%nat. change (fact (S i)) with (S i * fact i)%nat. rewrite !mult_INR.
      replace (INR (S (i + n))) with (INR (S i) + INR n) by (rewrite <- plus_INR; auto). pose proof posn. pose proof (pos_INR (S i)).
      replace (INR (S i) / (INR (S i) + INR n) * W i * ((INR (S i) + INR n) * INR (fact (i + n)))) with (INR (S i) * (W i * INR (fact (i + n)))) by (field; lra). rewrite IH. ring. }
    pose proof (cnt_all_fact (i + n) i n eq_refl) as H. apply (f_equal INR) in H. rewrite !mult_INR in H. rewrite <- H in G.
    assert (P : INR (fact i) * INR (fact n) <> 0) by (apply Rmult_integral_contrapositive; auto). apply (Rmult_eq_reg_r (INR (fact i) * INR (fact n))); auto. lra.
  Qed.
End compute.
Lemma nth_row q m n : nth n (row q m n m) 0 = W n m * INR (cnt (nb q m n) m n).
Proof. unfold row. rewrite (nth_indep _ 0 (W n m * INR (cnt (nb q m n) m 0))) by (rewrite map_length, seq_length; lia). rewrite (map_nth (fun j => W n m * INR (cnt (nb q m n) m j))), seq_nth by lia. auto. Qed.
(** the bound in whole numbers *)
Definition near (x : R) (m n i j : nat) : Prop := Rabs (INR i * INR n - INR j * INR m) <= x * INR m * INR n - / 10 ^ 7.
Lemma nb_near x m n i j : (1 <= m)%nat -> (1 <= n)%nat -> nb (smirnov_q x m n) m n i j = true <-> near x m n i j.
Proof.
  intros Hm Hn. assert (Pm : 0 < INR m) by (apply lt_0_INR; lia). assert (Pn : 0 < INR n) by (apply lt_0_INR; lia). unfold nb, near, above, smirnov_q. set (y := x * INR m * INR n - / 10 ^ 7). 
  assert (Emn : 0 < INR m * INR n) by nra.
  assert (E : Rabs (INR i / INR m - INR j / INR n) * (INR m * INR n) = Rabs (INR i * INR n - INR j * INR m)).
  { rewrite <- (Rabs_right (INR m * INR n)) at 1 by lra. rewrite <- Rabs_mult. f_equal. field. lra. }
  set (z := (Z.of_nat i * Z.of_nat n - Z.of_nat j * Z.of_nat m)%Z). assert (Ez : Rabs (INR i * INR n - INR j * INR m) = IZR (Z.abs z)). { rewrite abs_IZR. unfold z. rewrite minus_IZR, !mult_IZR, <- !INR_IZR_INZ. auto. }
  rewrite Ez in *. set (a := Rabs _) in *. pose proof (floor_spec y) as FS. unfold rfloor in *. set (f := Int_part y) in *.
  assert (Eq : (/ 2 + IZR f) / (INR m * INR n) * (INR m * INR n) = / 2 + IZR f) by (field; lra). set (qq := (/ 2 + IZR f) / (INR m * INR n)) in *.
  destruct (Rlt_dec qq a) as [H|H]; cbn [bool_of negb]; split; auto; try discriminate; intros Hx.
  - exfalso. assert (/ 2 + IZR f < IZR (Z.abs z)) by (rewrite <- Eq, <- E; apply Rmult_lt_compat_r; lra). assert (IZR f < IZR (Z.abs z)) as L1 by lra. assert (IZR (Z.abs z) < IZR (f + 1)) as L2 by (rewrite plus_IZR; lra). apply lt_IZR in L1, L2. lia.
  - assert (IZR (Z.abs z) <= / 2 + IZR f) by (rewrite <- Eq, <- E; apply Rmult_le_compat_r; lra). assert (IZR (Z.abs z) < IZR (f + 1)) as L2 by (rewrite plus_IZR; lra). apply lt_IZR in L2. assert (IZR (Z.abs z) <= IZR f) by (apply IZR_le; lia). lra.
Qed.
(** C64: the confidence is the share of the paths that stay near the diagonal.  [near]: |i n - j m| is at most x m n, less the 10^-7 that keep a
    distance of exactly x out whatever the rounding. *)
Definition is_share (r : R) (P : list bool -> Prop) (m n : nat) : Prop := exists good all : list (list bool), NoDup good /\ NoDup all /\ (1 <= length all)%nat /\ (forall p, In p all <-> ups p = m /\ acrosses p = n) /\ (forall p, In p good <-> In p all /\ P p) /\ r = INR (length good) / INR (length all).
Lemma share_of nbr P m n : (forall p, staysb nbr p = true <-> P p) -> (1 <= cnt_all m n)%nat -> is_share (INR (cnt nbr m n) / INR (cnt_all m n)) P m n.
Proof.
  intros HP H1. exists (List.filter (inb nbr m) (bl (m + n))), (List.filter (inb (fun _ _ => true) m) (bl (m + n))).
  assert (ND : forall f, NoDup (List.filter f (bl (m + n)))). { intros f. apply NoDup_ListNoDup, List.NoDup_filter, NoDup_ListNoDup, bl_nodup. }
  assert (HA : forall p, In p (List.filter (inb (fun _ _ => true) m) (bl (m + n))) <-> ups p = m /\ acrosses p = n).
  { intros p. rewrite filter_In, bl_in. pose proof (ups_across p). unfold inb. rewrite andb_true_iff, Nat.eqb_eq, staysb_ok. split; [intros (? & ? & _); lia|]. intros (? & ?). repeat split; try lia. }
  split; [auto|]. split; [auto|]. split; [auto|]. split; [auto|]. split; [|auto].
  intros p. rewrite HA, filter_In, bl_in. pose proof (ups_across p). unfold inb. rewrite andb_true_iff, Nat.eqb_eq, HP. intuition lia.
Qed.
Lemma cnt_all_pos m n : (1 <= cnt_all m n)%nat.
Proof. pose proof (cnt_all_fact (m + n) m n eq_refl) as H. pose proof (lt_O_fact (m + n)). destruct (cnt_all m n); cbn in *; lia. Qed.
Lemma stays_mono (P Q : nat -> nat -> Prop) p : (forall i j, P i j -> Q i j) -> stays P p -> stays Q p.
Proof. intros H Hs k Hk. auto. Qed.
Lemma smirnov_sorted x m n : (1 <= m)%nat -> (1 <= n)%nat -> nth n (fold_left (fun u i => u_step (smirnov_q x m n) m n i u) (seq 1 m) (u0 (smirnov_q x m n) n)) 0 =
  INR (cnt (nb (smirnov_q x m n) m n) m n) / INR (cnt_all m n).
Proof.
  intros Hm Hn. rewrite all_rows by auto. rewrite nth_row. pose proof (W_all m n Hm Hn m) as HW. pose proof (cnt_all_pos m n) as HC. apply le_INR in HC. cbn in HC.
  apply (Rmult_eq_reg_r (INR (cnt_all m n))); [|lra]. replace (W n m * INR (cnt (nb (smirnov_q x m n) m n) m n) * INR (cnt_all m n)) with (W n m * INR (cnt_all m n) * INR (cnt (nb (smirnov_q x m n) m n) m n)) by ring.
  rewrite HW. field. lra.
Qed.
Lemma cnt_sym f : forall s i j, (i + j = s)%nat -> cnt f i j = cnt (fun a b => f b a) j i.
Proof.
  induction s as [|s IH]; intros i j E.
  - destruct i, j; try lia. rewrite !cnt_00. auto.
  - destruct i as [|i], j as [|j]; try lia.
    + rewrite cnt_0S, cnt_S0, (IH 0%nat j) by lia. auto.
    + rewrite cnt_0S, cnt_S0, (IH i 0%nat) by lia. auto.
    + rewrite !cnt_SS, (IH i (S j)), (IH (S i) j) by lia. destruct (f (S i) (S j)); auto. lia.
Qed.
Lemma near_sym x m n i j : near x m n i j <-> near x n m j i.
Proof. unfold near. rewrite Rabs_minus_sym. replace (x * INR m * INR n) with (x * INR n * INR m) by ring. tauto. Qed.
Lemma cnt_ext f g : (forall i j, f i j = g i j) -> forall m n, cnt f m n = cnt g m n.
Proof.
  intros H m n. unfold cnt. apply filter_len_ext. intros p _. unfold inb. f_equal. apply eq_true_iff_eq. rewrite !staysb_ok. split; apply stays_mono; intros i j; rewrite H; auto.
Qed.
Theorem C64_paths : forall x m n, (1 <= m)%nat -> (1 <= n)%nat -> is_share (psmirnov2x x m n) (stays (near x m n)) m n.
Proof.
  intros x m n Hm Hn. unfold psmirnov2x. destruct (Nat.ltb_spec n m) as [Hlt|Hge].
  - rewrite smirnov_sorted by auto. replace (cnt_all n m) with (cnt_all m n) by (unfold cnt_all; apply (cnt_sym _ (m + n)); auto).
    rewrite (cnt_sym _ (n + m) n m eq_refl). apply share_of; [|apply cnt_all_pos]. intros p. rewrite staysb_ok. split; apply stays_mono; intros i j; rewrite nb_near, (near_sym x m n) by auto; auto.
  - rewrite smirnov_sorted by auto. apply share_of; [|apply cnt_all_pos]. intros p. rewrite staysb_ok. split; apply stays_mono; intros i j; rewrite nb_near by auto; auto.
Qed.
Print Assumptions C64_paths.
(** C64: every distance between two samples of sizes m and n is k/(m n) for a whole k; for these the paths counted are those that stay at a distance
    strictly less: the p value, one less the confidence, is the share of arrangements at least as far apart as the samples. *)
Theorem C64_attained : forall k m n, (1 <= m)%nat -> (1 <= n)%nat -> let x := INR k / (INR m * INR n) in
  is_share (psmirnov2x x m n) (stays (fun i j => Rabs (INR i / INR m - INR j / INR n) < x)) m n.
Proof.
  intros k m n Hm Hn x. assert (Pm : 0 < INR m) by (apply lt_0_INR; lia). assert (Pn : 0 < INR n) by (apply lt_0_INR; lia). assert (Emn : 0 < INR m * INR n) by nra.
  assert (E : forall i j, near x m n i j <-> Rabs (INR i / INR m - INR j / INR n) < x).
  { intros i j. unfold near. replace (x * INR m * INR n) with (INR k) by (unfold x; field; lra).
    assert (E : Rabs (INR i / INR m - INR j / INR n) * (INR m * INR n) = Rabs (INR i * INR n - INR j * INR m)).
    { rewrite <- (Rabs_right (INR m * INR n)) at 1 by lra. rewrite <- Rabs_mult. f_equal. field. lra. }
    assert (Ex : x * (INR m * INR n) = INR k) by (unfold x; field; lra).
    set (z := (Z.of_nat i * Z.of_nat n - Z.of_nat j * Z.of_nat m)%Z). assert (Ez : Rabs (INR i * INR n - INR j * INR m) = IZR (Z.abs z)). { rewrite abs_IZR. unfold z. rewrite minus_IZR, !mult_IZR, <- !INR_IZR_INZ. auto. }
    rewrite Ez in *. set (a := Rabs _) in *. assert (P7 : 0 < / 10 ^ 7 < 1). { assert (0 < 10 ^ 7) by (apply pow_lt; lra). split; [apply Rinv_0_lt_compat; auto|]. rewrite <- Rinv_1 at 1. apply Rinv_1_lt_contravar; lra. }
    split; intros H.
    - apply (Rmult_lt_reg_r (INR m * INR n)); auto. lra.
    - assert (IZR (Z.abs z) < IZR (Z.of_nat k)) as L by (rewrite <- INR_IZR_INZ, <- Ex, <- E; apply Rmult_lt_compat_r; auto). apply lt_IZR in L.
      assert (IZR (Z.abs z) <= IZR (Z.of_nat k - 1)) as L2 by (apply IZR_le; lia). rewrite minus_IZR, <- INR_IZR_INZ in L2. lra. }
  destruct (C64_paths x m n Hm Hn) as (g & a & H1 & H2 & H3 & H4 & H5 & H6). exists g, a. split; [auto|]. split; [auto|]. split; [auto|]. split; [auto|]. split; [|auto].
  intros p. rewrite H5. split; intros [A B]; split; auto; eapply stays_mono; try exact B; intros i j; apply E.
Qed.
Print Assumptions C64_attained.
Theorem C64_symmetric : forall x m n, psmirnov2x x m n = psmirnov2x x n m.
Proof.
  intros x m n. unfold psmirnov2x. destruct (Nat.ltb_spec n m), (Nat.ltb_spec m n); auto; try lia. assert (m = n) by lia. subst. auto.
Qed.
Print Assumptions C64_symmetric.
Example C64_nonvacuous : let near1 := fun i j => Rabs (INR i / INR 2 - INR j / INR 2) < INR 4 / (INR 2 * INR 2) in
  stays near1 [true; false; true; false] /\ ~ stays near1 [true; true; false; false].
Proof.
  cbv zeta. split.
  - intros k Hk. cbn in Hk. assert (k = 0 \/ k = 1 \/ k = 2 \/ k = 3 \/ k = 4)%nat as [->|[->|[->|[->| ->]]]] by lia; cbn; apply Rabs_def1; lra.
  - intros H. specialize (H 2%nat ltac:(cbn; lia)). cbn in H. apply Rabs_def2 in H. lra.
Qed.

(** ---------- C65: specification ---------- *)
(** square matrices of size m as functions, of which the entries below m count *)
Definition mmul (m : nat) (A B : nat -> nat -> R) (i j : nat) : R := Rsumf (fun k => A i k * B k j) (seq 0 m).
Fixpoint mpow (m : nat) (A : nat -> nat -> R) (n : nat) : nat -> nat -> R := match n with O => fun i j => if (i =? j)%nat then 1 else 0 | S n' => mmul m A (mpow m A n') end.
(** the matrix of Marsaglia, Tsang and Wang (2003): ones over factorials below and next to the diagonal, with the first column, the last row and their
    common entry changed *)
Definition mtw (m : nat) (h : R) (i j : nat) : R :=
  if (i + 1 <? j)%nat then 0 else
  (if (i =? m - 1)%nat && (j =? 0)%nat then 1 - 2 * h ^ m + Rmax 0 (2 * h - 1) ^ m
   else if (j =? 0)%nat then 1 - h ^ (i + 1) else if (i =? m - 1)%nat then 1 - h ^ (m - j) else 1) / INR (fact (i + 1 - j)).

(** ---------- proofs ---------- *)
Lemma flat_nth {A} (f : nat -> list A) m (d : A) : (forall i, length (f i) = m) -> forall k s i j, (i < k)%nat -> (j < m)%nat -> nth (i * m + j) (flat_map f (seq s k)) d = nth j (f (s + i)%nat) d.
Proof.
  intros HL. induction k as [|k IH]; intros s i j Hi Hj; [lia|]. cbn [seq flat_map]. destruct i as [|i].
  - cbn [Nat.mul Nat.add]. rewrite app_nth1 by (rewrite HL; auto). rewrite Nat.add_0_r. auto.
  - rewrite app_nth2 by (rewrite HL; nia). rewrite HL. replace (S i * m + j - m)%nat with (i * m + j)%nat by nia. rewrite IH by lia. f_equal. f_equal. lia.
Qed.
Lemma ent_build m (f : nat -> nat -> R) i j : (i < m)%nat -> (j < m)%nat -> ent m (flat_map (fun i => map (fun j => f i j) (seq 0 m)) (seq 0 m)) i j = f i j.
Proof.
  intros Hi Hj. unfold ent. rewrite flat_nth; auto; [|intros; rewrite map_length, seq_length; auto]. cbn [Nat.add].
  rewrite (nth_indep _ 0 (f i 0%nat)) by (rewrite map_length, seq_length; auto). rewrite (map_nth (f i)), seq_nth by auto. auto.
Qed.
Lemma fold_sumf (g : nat -> R) l : forall a, fold_left (fun s k => s + g k) l a = a + Rsumf g l.
Proof. induction l as [|k l IH]; intros a; cbn [fold_left]; [unfold Rsumf, Rsum; cbn; lra|]. rewrite IH, Rsumf_cons. lra. Qed.
(** C65: multiplication *)
Theorem C65_multiply : forall m A B i j, (i < m)%nat -> (j < m)%nat -> ent m (m_multiply A B m) i j = mmul m (ent m A) (ent m B) i j.
Proof. intros m A B i j Hi Hj. unfold m_multiply. rewrite (ent_build m (fun i j => fold_left (fun s k => s + ent m A i k * ent m B k j) (seq 0 m) 0)) by auto. rewrite (fold_sumf (fun k => ent m A i k * ent m B k j)). unfold mmul. lra. Qed.
Print Assumptions C65_multiply.
Lemma sumf_ext (f g : nat -> R) l : (forall k, In k l -> f k = g k) -> Rsumf f l = Rsumf g l.
Proof. induction l as [|a l IH]; intros H; auto. rewrite !Rsumf_cons, (H a) by (cbn; auto). rewrite IH by (intros; apply H; cbn; auto). auto. Qed.
Lemma sumf_mult c (f : nat -> R) l : Rsumf (fun k => c * f k) l = c * Rsumf f l.
Proof. induction l as [|a l IH]; [unfold Rsumf, Rsum; cbn; lra|]. rewrite !Rsumf_cons, IH. lra. Qed.
Lemma sumf_plus (f g : nat -> R) l : Rsumf (fun k => f k + g k) l = Rsumf f l + Rsumf g l.
Proof. induction l as [|a l IH]; [unfold Rsumf, Rsum; cbn; lra|]. rewrite !Rsumf_cons, IH. lra. Qed.
Lemma sumf_zero (l : list nat) : Rsumf (fun _ => 0) l = 0.
Proof. induction l as [|a l IH]; [unfold Rsumf, Rsum; cbn; lra|]. rewrite !Rsumf_cons, IH. lra. Qed.
Lemma sumf_swap (f : nat -> nat -> R) l1 l2 : Rsumf (fun i => Rsumf (fun j => f i j) l2) l1 = Rsumf (fun j => Rsumf (fun i => f i j) l1) l2.
Proof.
  induction l1 as [|a l1 IH].
  - rewrite (sumf_ext (fun j => Rsumf (fun i => f i j) []) (fun _ => 0)) by (intros; unfold Rsumf, Rsum; auto). rewrite sumf_zero. auto.
  - rewrite Rsumf_cons, IH. rewrite <- sumf_plus. apply sumf_ext. intros k _. rewrite Rsumf_cons. auto.
Qed.
Definition meq (m : nat) (A B : nat -> nat -> R) : Prop := forall i j, (i < m)%nat -> (j < m)%nat -> A i j = B i j.
Lemma mmul_ext m A A' B B' : meq m A A' -> meq m B B' -> meq m (mmul m A B) (mmul m A' B').
Proof. intros HA HB i j Hi Hj. apply sumf_ext. intros k Hk. apply in_seq in Hk. rewrite HA, HB by lia. auto. Qed.
Lemma mmul_assoc m A B C : meq m (mmul m (mmul m A B) C) (mmul m A (mmul m B C)).
Proof.
  intros i j Hi Hj. unfold mmul. rewrite (sumf_ext _ (fun k => Rsumf (fun l => A i l * B l k * C k j) (seq 0 m))).
  - rewrite sumf_swap. apply sumf_ext. intros l _. rewrite <- sumf_mult. apply sumf_ext. intros k _. ring.
  - intros k _. rewrite Rmult_comm, <- sumf_mult. apply sumf_ext. intros l _. ring.
Qed.
Lemma mmul_id m A i j : (i < m)%nat -> mmul m (mpow m A 0) A i j = A i j.
Proof.
  intros Hi. cbn [mpow]. unfold mmul. assert (G : forall k s, Rsumf (fun k => (if (i =? k)%nat then 1 else 0) * A k j) (seq s k) = if (s <=? i)%nat && (i <? s + k)%nat then A i j else 0).
  { induction k as [|k IH]; intros s; cbn [seq].
    - unfold Rsumf, Rsum. cbn. destruct (Nat.leb_spec s i), (Nat.ltb_spec i (s + 0)); cbn; auto; lia.
    - rewrite Rsumf_cons, IH. destruct (Nat.eqb_spec i s), (Nat.leb_spec (S s) i), (Nat.leb_spec s i), (Nat.ltb_spec i (S s + k)), (Nat.ltb_spec i (s + S k)); cbn; subst; try lia; lra. }
  rewrite G. destruct (Nat.leb_spec 0 i), (Nat.ltb_spec i (0 + m)); cbn; auto; lia.
Qed.
Lemma mpow_add m A a b : (1 <= b)%nat -> meq m (mpow m A (a + b)) (mmul m (mpow m A a) (mpow m A b)).
Proof.
  intros Hb. induction a as [|a IH].
  - destruct b as [|b]; [lia|]. intros i j Hi Hj. change (mpow m A (0 + S b)) with (mmul m A (mpow m A b)). change (mpow m A (S b)) with (mmul m A (mpow m A b)).
    rewrite <- (mmul_assoc m _ _ _ i j Hi Hj). symmetry. apply mmul_ext; [|intros ? ? ? ?; auto| |]; auto. intros x y Hx _. apply mmul_id. auto.
  - intros i j Hi Hj. change (mpow m A (S a + b)) with (mmul m A (mpow m A (a + b))). change (mpow m A (S a)) with (mmul m A (mpow m A a)).
    rewrite (mmul_assoc m _ _ _ i j Hi Hj). apply mmul_ext; auto. intros ? ? ? ?. auto.
Qed.
Lemma mpow_1 m A : meq m (mpow m A 1) A.
Proof.
  intros i j Hi Hj. cbn [mpow]. unfold mmul. assert (G : forall k s, Rsumf (fun k => A i k * (if (k =? j)%nat then 1 else 0)) (seq s k) = if (s <=? j)%nat && (j <? s + k)%nat then A i j else 0).
  { induction k as [|k IH]; intros s; cbn [seq].
    - unfold Rsumf, Rsum. cbn. destruct (Nat.leb_spec s j), (Nat.ltb_spec j (s + 0)); cbn; auto; lia.
    - rewrite Rsumf_cons, IH. destruct (Nat.eqb_spec s j), (Nat.leb_spec (S s) j), (Nat.leb_spec s j), (Nat.ltb_spec j (S s + k)), (Nat.ltb_spec j (s + S k)); cbn; subst; try lia; lra. }
  rewrite G. destruct (Nat.leb_spec 0 j), (Nat.ltb_spec j (0 + m)); cbn; auto; lia.
Qed.
Lemma mmul_scale m A B (a b : R) i j : mmul m (fun i j => A i j * a) (fun i j => B i j * b) i j = mmul m A B i j * (a * b).
Proof. unfold mmul. rewrite (Rmult_comm (Rsumf _ _)), <- sumf_mult. apply sumf_ext. intros. ring. Qed.
Lemma ten_neq : 10 <> 0. Proof. lra. Qed.
(** a block with an exponent of ten: the matrix it stands for *)
Definition means (m : nat) (V : list R) (e : Z) (i j : nat) : R := ent m V i j * powerRZ 10 e.
Lemma p140_z : p140 = powerRZ 10 140.
Proof. unfold p140. change 140%Z with (Z.of_nat 140). rewrite <- pow_powerRZ. auto. Qed.
Lemma rescale_ok m V e V' e' : rescale V e m = (V', e') -> meq m (means m V' e') (means m V e).
Proof.
  unfold rescale. destruct (Rlt_dec _ _); intros [= <- <-] i j Hi Hj; auto. unfold means, ent.
  assert (P : p140 <> 0) by (unfold p140; apply pow_nonzero, ten_neq).
  replace (nth (i * m + j) (map (fun x => x * / p140) V) 0) with (nth (i * m + j) V 0 * / p140).
  - rewrite powerRZ_add by apply ten_neq. rewrite <- p140_z. field. auto.
  - transitivity (nth (i * m + j) (map (fun x => x * / p140) V) (0 * / p140)); [symmetry; apply (map_nth (fun x => x * / p140))|]. f_equal. lra.
Qed.
Lemma means_mul m A B a b : meq m (means m (m_multiply A B m) (a + b)) (mmul m (means m A a) (means m B b)).
Proof.
  intros i j Hi Hj. unfold means at 1. rewrite C65_multiply by auto. rewrite powerRZ_add by apply ten_neq. rewrite <- mmul_scale. auto.
Qed.
(** C65: the power; the exponents of ten that are taken out to avoid overflow are accounted for. *)
Theorem C65_power : forall m A eA n fuel V eV, (1 <= n <= fuel)%nat -> m_power fuel A eA m n = (V, eV) ->
  forall i j, (i < m)%nat -> (j < m)%nat -> ent m V i j * powerRZ 10 eV = mpow m (fun i j => ent m A i j * powerRZ 10 eA) n i j.
Proof.
  intros m A eA n fuel V eV Hn H. change (meq m (means m V eV) (mpow m (means m A eA) n)). revert n V eV Hn H.
  induction fuel as [|fuel IH]; intros n V eV Hn H; [lia|]. cbn [m_power] in H. destruct (Nat.eqb_spec n 1) as [->|Hn1].
  - injection H as <- <-. intros i j Hi Hj. symmetry. apply mpow_1; auto.
  - destruct (m_power fuel A eA m (n / 2)) as [V0 e0] eqn:E0.
    assert (Hd : (1 <= n / 2 <= fuel)%nat). { split; [apply Nat.div_le_lower_bound; lia|]. assert (n / 2 < n)%nat by (apply Nat.div_lt; lia). lia. }
    specialize (IH _ _ _ Hd E0). pose proof (Nat.div_mod n 2 ltac:(lia)) as DM. pose proof (Nat.mod_upper_bound n 2 ltac:(lia)) as MB.
    assert (Sq : meq m (means m (m_multiply V0 V0 m) (2 * e0)) (mpow m (means m A eA) (n / 2 + n / 2))).
    { intros i j Hi Hj. replace (2 * e0)%Z with (e0 + e0)%Z by lia. rewrite means_mul, mpow_add by (auto; lia). apply mmul_ext; auto. }
    destruct (Nat.eqb_spec (n mod 2) 0) as [E2|E2]; intros i j Hi Hj; rewrite (rescale_ok _ _ _ _ _ H i j Hi Hj).
    + rewrite Sq by auto. f_equal. lia.
    + rewrite means_mul by auto. transitivity (mpow m (means m A eA) (S (n / 2 + n / 2)) i j); [|f_equal; lia]. cbn [mpow]. apply mmul_ext; auto. intros ? ? ? ?. auto.
Qed.
Print Assumptions C65_power.
Lemma kol_scale_ok n : forall k s e s' e', (1 <= n)%nat -> fold_left (fun '(s, e) i => let s' := s * INR i / INR n in if Rlt_dec s' (/ p140) then (s' * p140, (e - 140)%Z) else (s', e)) (seq 1 k) (s, e) = (s', e') ->
  s' * powerRZ 10 e' = s * powerRZ 10 e * (INR (fact k) / INR n ^ k).
Proof.
  intros k s e s' e' Hn. assert (Pn : 0 < INR n) by (apply lt_0_INR; lia). revert s' e'. induction k as [|k IH]; intros s' e' H.
  - cbn in H. injection H as <- <-. cbn. lra.
  - rewrite seq_S, fold_left_app in H. destruct (fold_left _ (seq 1 k) (s, e)) as [s1 e1] eqn:E1. specialize (IH s1 e1 eq_refl). cbn [fold_left Nat.add] in H.
    change (fact (S k)) with (S k * fact k)%nat. rewrite mult_INR. rewrite <- (tech_pow_Rmult (INR n) k). pose proof (pow_lt (INR n) k Pn).
    assert (G : s1 * INR (S k) / INR n * powerRZ 10 e1 = s * powerRZ 10 e * (INR (S k) * INR (fact k) / (INR n * INR n ^ k))).
    { transitivity (s1 * powerRZ 10 e1 * (INR (S k) / INR n)); [field; lra|]. rewrite IH. field. lra. }
    destruct (Rlt_dec _ _); injection H as <- <-; [|auto]. rewrite <- G. unfold Zminus. rewrite powerRZ_add by apply ten_neq. change (-140)%Z with (- (140))%Z. rewrite powerRZ_neg'. rewrite <- p140_z.
    change (match k with 0%nat => 1 | S _ => INR k + 1 end) with (INR (S k)). field. split; [lra|]. unfold p140. apply pow_nonzero. lra.
Qed.
Lemma kol_H_ok m h i j : (i < m)%nat -> (j < m)%nat -> ent m (kol_H m h) i j = mtw m h i j.
Proof.
  intros Hi Hj. unfold kol_H. rewrite (ent_build m (fun i j => _)) by auto. unfold mtw.
  assert (RM : Rmax 0 (2 * h - 1) ^ m = if Rlt_dec 0 (2 * h - 1) then (2 * h - 1) ^ m else 0).
  { destruct (Rlt_dec 0 (2 * h - 1)); [rewrite Rmax_right by lra; auto|]. rewrite Rmax_left by lra. apply pow_i. lia. }
  destruct (Nat.ltb_spec (i + 1) j) as [H1|H1].
  - destruct (Nat.eqb_spec j 0); [lia|]. destruct (Nat.eqb_spec i (m - 1)); [lia|]. cbn [andb]. unfold Rdiv. lra.
  - assert (EF : (if (i + 1 <=? j)%nat then 1 else INR (fact (i + 1 - j))) = INR (fact (i + 1 - j))).
    { destruct (Nat.leb_spec (i + 1) j); auto. replace (i + 1 - j)%nat with 0%nat by lia. auto. }
    rewrite EF. f_equal. destruct (Nat.eqb_spec j 0), (Nat.eqb_spec i (m - 1)); cbn [andb]; try lra. rewrite RM. subst. replace (m - 1 + 1)%nat with m by lia. rewrite Nat.sub_0_r. lra.
Qed.
Lemma mpow_ext m A B n : meq m A B -> meq m (mpow m A n) (mpow m B n).
Proof. intros H. induction n as [|n IH]; intros i j Hi Hj; auto. cbn [mpow]. apply mmul_ext; auto. Qed.
(** C65: the confidence reported for distance d >= 0 *)
Theorem C65_distribution : forall n d, (1 <= n)%nat -> 0 <= d -> let k := Z.to_nat (Int_part (INR n * d) + 1) in let m := (2 * k - 1)%nat in
  (1 <= k)%nat /\ kolmogorov_2x n d = INR (fact n) / INR n ^ n * mpow m (mtw m (INR k - INR n * d)) n (k - 1) (k - 1).
Proof.
  intros n d Hn Hd k m. assert (Hk : (1 <= k)%nat). { unfold k. assert (0 <= INR n * d) by (apply Rmult_le_pos; [apply pos_INR|auto]). pose proof (floor_spec (INR n * d)) as [F1 F2]. unfold rfloor in *.
    assert (IZR (-1) < IZR (Int_part (INR n * d))) as L by lra. apply lt_IZR in L. lia. }
  split; [auto|]. unfold kolmogorov_2x. change (kol_k n d) with k. fold m. set (h := INR k - INR n * d). destruct (m_power n (kol_H m h) 0 m n) as [Q eQ] eqn:EP.
  destruct (kol_scale n _ eQ) as [s e] eqn:ES. unfold kol_scale in ES. rewrite (kol_scale_ok n n _ _ _ _ Hn ES).
  rewrite (C65_power m (kol_H m h) 0 n n Q eQ ltac:(lia) EP) by (unfold m; lia). rewrite Rmult_comm. f_equal. apply mpow_ext; [|unfold m; lia|unfold m; lia].
  intros i j Hi Hj. cbn [powerRZ]. rewrite kol_H_ok by auto. lra.
Qed.
Print Assumptions C65_distribution.
(** an example: one observation, distance 3/4: the confidence is 1/2 *)
Example C65_nonvacuous : mpow 1 (mtw 1 (1 - 3 / 4)) 1 0 0 = 1 / 2.
Proof.
  rewrite mpow_1 by lia. unfold mtw. rewrite Rmax_left by lra.
 change (0 + 1 <? 0)%nat with false. change (0 =? 1 - 1)%nat with true. change (0 =? 0)%nat with true. cbn [andb]. rewrite !pow_1. cbn [fact Nat.add Nat.sub Nat.mul INR]. lra.
Qed.
