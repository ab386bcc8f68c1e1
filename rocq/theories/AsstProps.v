(** C44 pasting text; C45 generalized harmonic numbers; C46 per-thread generators (apop_asst.m4.c). *)
From Coq Require Import Reals Lra.
From Verif Require Import Base AsstModel StatsSpec.

(** ---------- C44: specification ---------- *)
(** the strings one after the other with [sep] in between *)
Fixpoint joined (sep : string) (l : list string) : string :=
  match l with [] => "" | [x] => x | x :: r => x +:+ sep +:+ joined sep r end.
Definition or_blank (s : option string) : string := match s with Some x => x | None => "" end.
(** the cells of row [i] the function wants *)
Definition wanted (f : nat -> nat -> Z) (i : nat) (row : list string) : list string := keep_by (map (fun j => negb (f i j =? 0)%Z) (seq 0 (length row))) row.

Lemma sapp_assoc (a b c : string) : (a +:+ b) +:+ c = a +:+ (b +:+ c).
Proof. induction a as [|x a IH]; [auto|]. change (String x ((a +:+ b) +:+ c) = String x (a +:+ (b +:+ c))). f_equal. auto. Qed.
Lemma sapp_nil (a : string) : a +:+ "" = a.
Proof. induction a as [|x a IH]; [auto|]. change (String x (a +:+ "") = String x a). f_equal. auto. Qed.
Lemma joined_cons sep x r : r <> [] -> joined sep (x :: r) = x +:+ sep +:+ joined sep r.
Proof. destruct r; [congruence|auto]. Qed.
Lemma keep_seq_cons {A} (h : nat -> bool) k (x : A) l : keep_by (map h (seq k (length (x :: l)))) (x :: l) = (if h k then [x] else []) ++ keep_by (map h (seq (S k) (length l))) l.
Proof. cbn. destruct (h k); auto. Qed.
Lemma keep_last {A} (h : nat -> bool) (l : list A) k : l <> [] -> h (k + length l - 1) = true -> keep_by (map h (seq k (length l))) l <> [].
Proof.
  revert k. induction l as [|x l IH]; intros k H Hh; [congruence|]. rewrite keep_seq_cons. destruct l as [|y l].
  - cbn in Hh. replace (k + 1 - 1) with k in Hh by lia. rewrite Hh. discriminate.
  - intros E. apply app_eq_nil in E as [_ E]. revert E. apply IH; [discriminate|]. rewrite <- Hh. f_equal. cbn. lia.
Qed.
(** one row, if its last cell is kept *)
Lemma paste_row_spec bc (h : nat -> bool) cells : forall j one, cells <> [] -> h (j + length cells - 1) = true ->
  paste_row bc (j + length cells - 1) h j cells one = Some (or_blank one +:+ joined bc (keep_by (map h (seq j (length cells))) cells)).
Proof.
  induction cells as [|c cs IH]; intros j one Hc Hh; [congruence|]. destruct cs as [|d cs].
  - cbn [length] in *. replace (j + 1 - 1) with j in * by lia. cbn. rewrite Hh. destruct (Nat.ltb_spec j j); [lia|]. cbn. destruct one; auto.
  - remember (d :: cs) as l eqn:El. cbn [paste_row]. cbn [length] in Hh |- *. replace (j + S (length l) - 1) with (S j + length l - 1) in * by lia.
    assert (Hl : l <> []) by (subst; discriminate). rewrite (IH (S j)) by auto. f_equal. change (S (length l)) with (length (c :: l)). rewrite keep_seq_cons.
    assert (HK := keep_last h l (S j) Hl Hh). destruct (h j); [|auto]. assert (Hlt : (j <? S j + length l - 1) = true).
    { apply Nat.ltb_lt. subst l. cbn. lia. }
    rewrite Hlt. cbn [tack or_blank app]. rewrite joined_cons by auto. destruct one; cbn [or_blank]; rewrite ?sapp_assoc; auto.
Qed.
Lemma paste_rows_spec b bc last keep (f : nat -> list string -> string) rows : forall i out prior,
  (forall k r, rows !! k = Some r -> paste_row bc last (keep (i + k)) 0 r None = Some (f (i + k) r)) ->
  let '(o, one) := paste_rows b bc last keep i rows out (Some prior) (Some prior) in
  tack o one = Some (or_blank out +:+ joined b (prior :: imap (fun k r => f (i + k) r) rows)).
Proof.
  induction rows as [|r rs IH]; intros i out prior H; cbn [paste_rows].
  - cbn. destruct out; auto.
  - pose proof (H 0 r eq_refl) as H0. rewrite Nat.add_0_r in H0. rewrite H0. specialize (IH (S i) (tack (tack out (Some prior)) (Some b)) (f i r)).
    destruct (paste_rows _ _ _ _ _ _ _ _ _) as [o one]. rewrite IH.
    2: { intros k r' Hr. specialize (H (S k) r' Hr). replace (S i + k) with (i + S k) by lia. auto. }
    f_equal. cbn [imap]. rewrite Nat.add_0_r. rewrite (joined_cons b prior) by discriminate.
    assert (E : imap ((λ (k : nat) (r0 : list string), f (i + k) r0) ∘ S) rs = imap (λ (k : nat) (r0 : list string), f (S i + k) r0) rs).
    { apply imap_ext. intros k x _. cbn. f_equal. lia. }
    rewrite E. destruct out; cbn [tack or_blank]; rewrite ?sapp_assoc; auto.
Qed.
Lemma paste_grid (g : grid string) between before after bcols prune (f : nat -> list string -> string) : gr g > 0 -> wf_grid g ->
  let b := match between with Some s => s | None => " " end in let bc := match bcols with Some s => s | None => b end in
  (forall i r, ga g !! i = Some r -> paste_row bc (gc g - 1) (fun j => match prune with None => true | Some f => negb (f i j =? 0)%Z end) 0 r None = Some (f i r)) ->
  text_paste (Some g) between before after bcols prune = Some (or_blank before +:+ joined b (imap f (ga g)) +:+ or_blank after).
Proof.
  intros Hg [Hl _] b bc H. unfold text_paste. fold b. fold bc. destruct (ga g) as [|r rs] eqn:E; [cbn in Hl; lia|]. cbn [paste_rows].
  pose proof (H 0 r eq_refl) as H0. rewrite H0. cbn [tack].
  pose proof (paste_rows_spec b bc (gc g - 1) (fun i j => match prune with None => true | Some f => negb (f i j =? 0)%Z end) f rs 1 before (f 0 r)) as P.
  destruct (paste_rows _ _ _ _ _ _ _ _ _) as [o one]. rewrite P.
  2: { intros k r' Hr. apply (H (S k)). auto. }
  cbn [tack or_blank imap]. assert (EE : imap (f ∘ S) rs = imap (λ (k : nat) (r0 : list string), f (1 + k) r0) rs) by auto. rewrite EE.
  destruct after; cbn [tack or_blank]; rewrite ?sapp_nil, ?sapp_assoc; auto.
Qed.
(** C44: the elements in order, [between_cols] between those of a row, [between] between rows, [before] and [after] at the ends. *)
Theorem C44_paste : forall g between before after bcols, wf_grid g -> gr g > 0 -> gc g > 0 ->
  text_paste (Some g) between before after bcols None =
  Some (or_blank before +:+ joined (default " " between) (map (joined (default (default " " between) bcols)) (ga g)) +:+ or_blank after).
Proof.
  intros g between before after bcols Hw Hr Hc. rewrite (paste_grid g between before after bcols None (fun _ r => joined (default (default " " between) bcols) r)); auto.
  - do 3 f_equal. assert (E : forall (h : list string -> string) l, imap (fun _ r => h r) l = map h l).
    { intros h l. induction l as [|x l IH]; cbn; [auto|]. f_equal. auto. } rewrite E. destruct between; auto.
  - intros i r Hi. assert (HL : length r = gc g) by (destruct Hw as [_ Hf]; eapply Forall_lookup in Hf; eauto).
    rewrite <- HL. replace (length r - 1) with (0 + length r - 1) by lia. rewrite (paste_row_spec _ (fun _ => true)) by (auto; intros ->; cbn in HL; lia).
    cbn [or_blank]. f_equal. assert (K : keep_by (map (fun _ : nat => true) (seq 0 (length r))) r = r).
    { clear. generalize 0. induction r; intros n; cbn; f_equal; auto. } rewrite K. destruct between, bcols; auto.
Qed.
Print Assumptions C44_paste.
(** without rows, or without text, there are only the two ends *)
Theorem C44_nothing : forall t between before after bcols prune, (t = None \/ exists g, t = Some g /\ wf_grid g /\ (gr g = 0 \/ gc g = 0)) ->
  or_blank (text_paste t between before after bcols prune) = or_blank before +:+ or_blank after.
Proof.
  intros t between before after bcols prune H.
  assert (K : forall o : option string, or_blank (tack (tack o None) after) = or_blank o +:+ or_blank after) by (intros [x|]; destruct after; cbn; rewrite ?sapp_nil; auto).
  destruct H as [->|(g & -> & [Hl Hf] & [Hg|Hg])]; unfold text_paste.
  - apply K.
  - rewrite Hg in Hl. apply length_zero_iff_nil in Hl. rewrite Hl. apply K.
  - rewrite Hg in Hf. set (b := match between with Some s => s | None => " " end). set (bc := match bcols with Some s => s | None => b end).
    assert (P : forall rows i, Forall (fun r => length r = 0) rows -> forall k, paste_rows b bc (gc g - 1) k i rows before None None = (before, None)).
    { induction rows as [|r rs IH]; intros i HF k; auto. inversion HF as [|? ? H1 H2]; subst. apply length_zero_iff_nil in H1. subst r. cbn. auto. }
    rewrite P by auto. apply K.
Qed.
Print Assumptions C44_nothing.
(** C44: with a prune function for which the last cell of each row gets a nonzero answer, exactly the cells with a nonzero answer are used. *)
Theorem C44_prune : forall g between before after bcols f, wf_grid g -> gr g > 0 -> gc g > 0 -> (forall i, i < gr g -> f i (gc g - 1) <> 0%Z) ->
  text_paste (Some g) between before after bcols (Some f) =
  Some (or_blank before +:+ joined (default " " between) (imap (fun i r => joined (default (default " " between) bcols) (wanted f i r)) (ga g)) +:+ or_blank after).
Proof.
  intros g between before after bcols f Hw Hr Hc Hf. rewrite (paste_grid g between before after bcols (Some f) (fun i r => joined (default (default " " between) bcols) (wanted f i r))); auto.
  intros i r Hi. assert (HL : length r = gc g) by (destruct Hw as [_ HF]; eapply Forall_lookup in HF; eauto).
  assert (HI : i < gr g) by (destruct Hw as [<- _]; apply lookup_lt_Some in Hi; auto).
  rewrite <- HL. replace (length r - 1) with (0 + length r - 1) by lia. rewrite (paste_row_spec _ (fun j => negb (f i j =? 0)%Z)).
  - cbn [or_blank]. reflexivity.
  - destruct r; [cbn in HL; lia|discriminate].
  - cbn [Nat.add]. rewrite HL. specialize (Hf i HI). destruct (Z.eqb_spec (f i (gc g - 1)) 0); [congruence|auto].
Qed.
Print Assumptions C44_prune.
Example C44_nonvacuous : wf_grid (Gr 2 2 [["a"; "b"]; ["c"; "d"]]) /\
  text_paste (Some (Gr 2 2 [["a"; "b"]; ["c"; "d"]])) (Some ";") (Some "<") (Some ">") (Some ",") (Some (fun i j => if (i =? 0) && (j =? 0) then 0%Z else 1%Z)) = Some "<b;c,d>".
Proof. split; [|reflexivity]. split; auto. repeat constructor. Qed.
(** Deviations.  The documented function "is blank", which asks to drop blanks, keeps nothing but blanks. *)
Theorem C44_sense_refuted : text_paste (Some (Gr 1 3 [["a"; ""; "b"]])) (Some ",") None None None
    (Some (fun i j => if j =? 1 then 1%Z else 0%Z)) = Some ",".
Proof. reflexivity. Qed.
(** a row whose last cell is not used ends with a stray separator, and a row with no cell used loses the separator between its neighbours *)
Theorem C44_separator_refuted :
  text_paste (Some (Gr 1 2 [["a"; "b"]])) (Some ",") None None None (Some (fun i j => if j =? 0 then 1%Z else 0%Z)) = Some "a," /\
  text_paste (Some (Gr 3 1 [["a"]; ["b"]; ["c"]])) (Some ",") None None None (Some (fun i j => if i =? 1 then 0%Z else 1%Z)) = Some "ac".
Proof. split; reflexivity. Qed.

(** ---------- C45 ---------- *)
(** the sum over n = 1..N of 1/n^s *)
Definition harm (N : nat) (s : R) : R := Rsum (map (fun n => 1 / Rpower (INR n) s)%R (seq 1 N)).
(** a program: a list of calls by one thread; its results *)
Fixpoint hcalls (t : table) (cs : list (Z * R)) : res (table * list (option R)) :=
  match cs with [] => Ok (t, []) | (N, s) :: r => do (t1, x) <- harmonic t N s; do (t2, l) <- hcalls t1 r; Ok (t2, x :: l) end.

Lemma Rsum_app_ l1 l2 : Rsum (l1 ++ l2) = (Rsum l1 + Rsum l2)%R.
Proof. unfold Rsum. induction l1 as [|x l IH]; cbn; [lra|]. rewrite IH. lra. Qed.
Lemma harm_S N s : harm (S N) s = (harm N s + 1 / Rpower (INR (S N)) s)%R.
Proof. unfold harm. rewrite seq_S, map_app, Rsum_app_. cbn [map]. unfold Rsum at 2. cbn [fold_right]. replace (1 + N) with (S N) by lia. lra. Qed.
Lemma harm_1 s : harm 1 s = 1%R.
Proof. unfold harm, Rsum. cbn [seq map fold_right]. change (INR 1) with 1%R. unfold Rpower. rewrite ln_1, Rmult_0_r, exp_0. lra. Qed.
Definition right_to (n : nat) (s : R) (b : list (option R)) : Prop := forall j, j < n -> b !! j = Some (Some (harm (S j) s)).
Definition good (m : memo) : Prop := 1 <= len m <= length (blk m) /\ right_to (length (blk m)) (es m) (blk m).
Definition inv (t : table) : Prop := Forall good t.
Lemma extend_ok s k : forall j b, 1 <= j -> length b = j + k -> right_to j s b -> exists b', extend s k j b = Ok b' /\ length b' = j + k /\ right_to (j + k) s b'.
Proof.
  induction k as [|k IH]; intros j b Hj HL HR; cbn [extend].
  - exists b. replace (j + 0) with j in * by lia. auto.
  - rewrite (HR (j - 1)) by lia. destruct (Nat.ltb_spec j (length b)); [|lia].
    destruct (IH (S j) (<[j:=Some (harm (S (j - 1)) s + 1 / powr (j + 1) s)%R]> b)) as (b' & E & L & Q); try lia.
    { rewrite insert_length. lia. }
    { intros i Hi. destruct (decide (i = j)) as [->|].
      - rewrite list_lookup_insert by lia. do 2 f_equal. rewrite (harm_S j). replace (S (j - 1)) with j by lia. unfold powr. replace (j + 1) with (S j) by lia. auto.
      - rewrite list_lookup_insert_ne by lia. apply HR. lia. }
    exists b'. split; [auto|]. split; [lia|]. replace (j + S k) with (S j + k) by lia. auto.
Qed.
Lemma regrow_len b n : length (regrow b n) = n \/ n < length b.
Proof. unfold regrow. rewrite app_length, take_length, replicate_length. lia. Qed.
Lemma find_es_spec s t : forall i, match find_es s t i with
  | Some k => i <= k /\ exists m, t !! (k - i) = Some m /\ es m = s | None => True end.
Proof.
  induction t as [|m t IH]; intros i; cbn; auto. destruct (Req_EM_T (es m) s).
  - split; auto. exists m. rewrite Nat.sub_diag. auto.
  - specialize (IH (S i)). destruct (find_es s t (S i)) as [k|]; auto. destruct IH as (H & m' & H1 & H2). split; [lia|]. exists m'. split; auto.
    replace (k - i) with (S (k - S i)) by lia. auto.
Qed.
Lemma regrow_right b n m s : right_to m s b -> m <= length b -> m <= n -> right_to m s (regrow b n).
Proof. intros H H1 H2 j Hj. unfold regrow. rewrite lookup_app_l by (rewrite take_length; lia). rewrite lookup_take by lia. apply H. lia. Qed.
(** the critical section: the table stays right, and afterwards entry [i] is for [s] and long enough *)
Lemma crit_ok t N s : inv t -> 1 <= N -> exists t' i, harmonic_crit t N s = Ok (t', i) /\ inv t' /\
  (exists m, t' !! i = Some m /\ es m = s /\ N <= length (blk m)) /\
  (forall k m, t !! k = Some m -> exists m', t' !! k = Some m' /\ es m' = es m /\ len m' = len m).
Proof.
  intros HI HN. unfold harmonic_crit. pose proof (find_es_spec s t 0) as HF. destruct (find_es s t 0) as [i|].
  - destruct HF as (_ & m & Hm & Hs). rewrite Nat.sub_0_r in Hm. rewrite Hm. pose proof (Forall_lookup_1 _ _ _ _ HI Hm) as [HL HR].
    destruct (Nat.leb_spec (len m) (N - 1)).
    + assert (LR : length (regrow (blk m) N) = N \/ N < length (blk m)) by apply regrow_len.
      assert (LR' : length (regrow (blk m) N) = N). { unfold regrow. rewrite app_length, take_length, replicate_length. lia. }
      destruct (extend_ok s (N - len m) (len m) (regrow (blk m) N)) as (b & -> & L & Q); try lia.
      { subst s. apply regrow_right; try lia. intros j Hj. apply HR. lia. }
      cbn [rbind]. eexists _, i. split; [reflexivity|]. replace (len m + (N - len m)) with N in * by lia.
      assert (Hlt : i < length t) by (eapply lookup_lt_Some; eauto).
      split; [|split].
      * apply Forall_insert; auto. unfold good. cbn [len blk es]. split; [lia|]. rewrite L, Hs. auto.
      * eexists. split; [apply list_lookup_insert; auto|]. cbn. split; auto. lia.
      * intros k m' Hk. destruct (decide (k = i)) as [->|].
        -- eexists. split; [apply list_lookup_insert; auto|]. cbn. rewrite Hm in Hk. injection Hk as <-. auto.
        -- exists m'. rewrite list_lookup_insert_ne by auto. auto.
    + eexists _, i. split; [reflexivity|]. split; [auto|]. split; [|eauto]. exists m. split; [auto|]. split; auto. lia.
  - set (b0 := <[0:=Some 1%R]> (replicate N None)). assert (L0 : length b0 = N) by (unfold b0; rewrite insert_length; apply replicate_length).
    assert (R0 : right_to 1 s b0). { intros j Hj. replace j with 0 by lia. unfold b0. rewrite list_lookup_insert by (rewrite replicate_length; lia). rewrite harm_1. auto. }
    rewrite lookup_app_r by lia. rewrite Nat.sub_diag. cbn [lookup list_lookup]. 
    destruct (Nat.leb_spec 1 (N - 1)).
    + cbn [blk es len]. assert (RG : regrow b0 N = b0). { unfold regrow. rewrite L0, Nat.sub_diag. cbn. rewrite app_nil_r. apply take_ge. lia. }
      rewrite RG. destruct (extend_ok s (N - 1) 1 b0) as (b & -> & L & Q); try lia; auto. cbn [rbind]. eexists _, (length t). split; [reflexivity|].
      replace (1 + (N - 1)) with N in * by lia. split; [|split].
      * rewrite insert_app_r_alt by lia. rewrite Nat.sub_diag. cbn. apply Forall_app. split; auto. constructor; [|constructor]. unfold good. cbn. split; [lia|]. rewrite L. auto.
      * eexists. split; [apply list_lookup_insert; rewrite app_length; cbn; lia|]. cbn. split; auto. lia.
      * intros k m Hk. assert (k < length t) by (eapply lookup_lt_Some; eauto). exists m. rewrite list_lookup_insert_ne by lia. rewrite lookup_app_l by lia. auto.
    + assert (HN1 : N = 1) by lia. eexists _, (length t). split; [reflexivity|]. split; [|split].
      * apply Forall_app. split; auto. constructor; [|constructor]. unfold good. cbn [len blk es]. rewrite L0. split; [lia|]. rewrite HN1. auto.
      * eexists. split; [rewrite lookup_app_r by lia; rewrite Nat.sub_diag; reflexivity|]. cbn [es blk]. split; auto. lia.
      * intros k m Hk. assert (k < length t) by (eapply lookup_lt_Some; eauto). exists m. rewrite lookup_app_l by lia. auto.
Qed.
Lemma read_right t i N m : inv t -> 1 <= N -> t !! i = Some m -> harmonic_read t i N = if N <=? length (blk m) then Ok (harm N (es m)) else UB.
Proof.
  intros HI HN Hm. unfold harmonic_read. rewrite Hm. pose proof (Forall_lookup_1 _ _ _ _ HI Hm) as [HL HR]. destruct (Nat.leb_spec N (length (blk m))).
  - rewrite (HR (N - 1)) by lia. do 2 f_equal. lia.
  - destruct (blk m !! (N - 1)) eqn:E; auto. apply lookup_lt_Some in E. lia.
Qed.
(** C45: whatever calls came before, a call returns the sum (NaN unless N is positive). *)
Theorem C45_history : forall calls, exists t, hcalls [] calls = Ok (t, map (fun '(N, s) => if (N <=? 0)%Z then None else Some (harm (Z.to_nat N) s)) calls).
Proof.
  intros calls. assert (H : forall t, inv t -> exists t', hcalls t calls = Ok (t', map (fun '(N, s) => if (N <=? 0)%Z then None else Some (harm (Z.to_nat N) s)) calls)); [|apply H; constructor].
  induction calls as [|[N s] cs IH]; intros t HI; cbn [hcalls map]; [eauto|]. unfold harmonic. destruct (Z.leb_spec N 0).
  - cbn [rbind]. destruct (IH t HI) as (t' & ->). cbn. eauto.
  - destruct (crit_ok t (Z.to_nat N) s HI) as (t1 & i & -> & HI1 & (m & Hm & Hs & HN) & _); [lia|]. cbn [rbind].
    rewrite (read_right t1 i (Z.to_nat N) m HI1 ltac:(lia) Hm). destruct (Nat.leb_spec (Z.to_nat N) (length (blk m))); [|lia]. cbn [rbind].
    destruct (IH t1 HI1) as (t' & ->). cbn. rewrite Hs. eauto.
Qed.
Print Assumptions C45_history.
Definition hstarts (calls : list (nat * R)) : list hcall := map (fun '(N, s) => HC N s HStart) calls.
Definition call_ok (t : table) (c : hcall) : Prop :=
  1 <= hN c /\ match hpcs c with HStart => True | HMid i => exists m, t !! i = Some m /\ es m = hs c | HDone r => r = Ok (harm (hN c) (hs c)) \/ r = UB end.
Lemma hrun_snoc sched k st : hrun (sched ++ [k]) st = (do s <- hrun sched st; hstep k s).
Proof. unfold hrun. rewrite fold_left_app. reflexivity. Qed.
(** C45: with calls by several threads, interleaved in any way, a call that returns a number returns the sum; the only other outcome is
    a read outside the table's block, see below. *)
Theorem C45_threads : forall calls sched, Forall (fun '(N, _) => 1 <= N) calls -> exists t cs, hrun sched ([], hstarts calls) = Ok (t, cs) /\
  length cs = length calls /\ forall k N s r, cs !! k = Some (HC N s (HDone r)) -> calls !! k = Some (N, s) /\ (r = Ok (harm N s) \/ r = UB).
Proof.
  intros calls sched HC0.
  assert (H : exists t cs, hrun sched ([], hstarts calls) = Ok (t, cs) /\ inv t /\ Forall (call_ok t) cs /\ map (fun c => (hN c, hs c)) cs = calls).
  { induction sched as [|k sched IH] using rev_ind.
    - eexists _, _. split; [reflexivity|]. split; [constructor|]. split.
      + unfold hstarts. apply Forall_map. eapply List.Forall_impl; [|exact HC0]. intros [N s] HN. split; auto. cbn. auto.
      + unfold hstarts. rewrite map_map. rewrite <- (map_id calls) at 2. apply map_ext. intros [N s]. auto.
    - destruct IH as (t & cs & E & HI & HF & HM). rewrite hrun_snoc, E. cbn [rbind]. unfold hstep. destruct (cs !! k) as [[N s pc]|] eqn:Ek; [|eauto 10].
      pose proof (Forall_lookup_1 _ _ _ _ HF Ek) as [HN Hpc]. cbn in HN, Hpc.
      assert (HMap : forall pc', map (fun c => (hN c, hs c)) (<[k := HC N s pc']> cs) = calls).
      { intros pc'. rewrite <- HM. apply list_eq. intros i. rewrite !list_lookup_fmap. destruct (decide (i = k)) as [->|]; [|rewrite list_lookup_insert_ne by auto; auto].
        rewrite list_lookup_insert by (eapply lookup_lt_Some; eauto). rewrite Ek. auto. }
      destruct pc as [|i|r]; [| |eauto 10].
      + destruct (crit_ok t N s HI HN) as (t' & i & -> & HI' & (m & Hm & Hs & _) & HT). cbn [rbind]. eexists _, _. split; [reflexivity|]. split; [auto|]. split; [|auto].
        apply Forall_insert.
        * eapply List.Forall_impl; [|exact HF]. intros [N' s' pc'] [A B]. split; [auto|]. cbn in *. destruct pc'; auto. destruct B as (m' & B1 & B2).
          destruct (HT _ _ B1) as (m2 & C1 & C2 & _). exists m2. split; auto. congruence.
        * split; [auto|]. cbn. eauto.
      + destruct Hpc as (m & Hm & Hs). eexists _, _. split; [reflexivity|]. split; [auto|]. split; [|auto]. apply Forall_insert; auto. split; [auto|]. cbn.
        rewrite (read_right t i N m HI HN Hm), Hs. destruct (N <=? _); auto. }
  destruct H as (t & cs & E & _ & HF & HM). exists t, cs. split; [auto|]. split; [rewrite <- HM, map_length; auto|]. intros k N s r Hk.
  pose proof (Forall_lookup_1 _ _ _ _ HF Hk) as [_ H]. cbn in H. split; [|auto]. rewrite <- HM, list_lookup_fmap, Hk. auto.
Qed.
Print Assumptions C45_threads.
(** C45: calls by several threads are all right if calls with the same exponent ask for the same number of terms. *)
Definition exact_len (nf : R -> nat) (t : table) : Prop := Forall (fun m => len m = nf (es m) /\ length (blk m) = nf (es m)) t.
Lemma crit_exact nf t s : inv t -> exact_len nf t -> 1 <= nf s -> exists t' i, harmonic_crit t (nf s) s = Ok (t', i) /\ exact_len nf t'.
Proof.
  intros HI HX HN. unfold harmonic_crit. pose proof (find_es_spec s t 0) as HF. destruct (find_es s t 0) as [i|].
  - destruct HF as (_ & m & Hm & Hs). rewrite Nat.sub_0_r in Hm. rewrite Hm. pose proof (Forall_lookup_1 _ _ _ _ HX Hm) as [HL HR].
    destruct (Nat.leb_spec (len m) (nf s - 1)); [subst s; lia|]. eauto.
  - rewrite lookup_app_r by lia. rewrite Nat.sub_diag. cbn [lookup list_lookup].
    set (b0 := <[0:=Some 1%R]> (replicate (nf s) None)). assert (L0 : length b0 = nf s) by (unfold b0; rewrite insert_length; apply replicate_length).
    assert (R0 : right_to 1 s b0). { intros j Hj. replace j with 0 by lia. unfold b0. rewrite list_lookup_insert by (rewrite replicate_length; lia). rewrite harm_1. auto. }
    destruct (Nat.leb_spec 1 (nf s - 1)).
    + cbn [blk es len]. assert (RG : regrow b0 (nf s) = b0). { unfold regrow. rewrite L0, Nat.sub_diag. cbn. rewrite app_nil_r. apply take_ge. lia. }
      rewrite RG. destruct (extend_ok s (nf s - 1) 1 b0) as (b & -> & L & Q); try lia; auto. cbn [rbind]. eexists _, (length t). split; [reflexivity|].
      rewrite insert_app_r_alt by lia. rewrite Nat.sub_diag. cbn. apply Forall_app. split; auto. constructor; [|constructor]. cbn. lia.
    + eexists _, (length t). split; [reflexivity|]. apply Forall_app. split; auto.
Qed.
Theorem C45_threads_uniform : forall (nf : R -> nat) calls sched, Forall (fun '(N, s) => 1 <= N /\ N = nf s) calls -> exists t cs, hrun sched ([], hstarts calls) = Ok (t, cs) /\
  forall k N s r, cs !! k = Some (HC N s (HDone r)) -> r = Ok (harm N s).
Proof.
  intros nf calls sched HC0.
  assert (H : exists t cs, hrun sched ([], hstarts calls) = Ok (t, cs) /\ inv t /\ exact_len nf t /\ Forall (call_ok t) cs /\ Forall (fun c => hN c = nf (hs c)) cs /\
    Forall (fun c => forall r, hpcs c = HDone r -> r = Ok (harm (hN c) (hs c))) cs).
  { induction sched as [|k sched IH] using rev_ind.
    - eexists _, _. split; [reflexivity|]. split; [constructor|]. split; [constructor|]. unfold hstarts.
      split; [|split]; apply Forall_map; (eapply List.Forall_impl; [|exact HC0]); intros [N s] [HN HN']; cbn; auto; [split; cbn; auto|discriminate].
    - destruct IH as (t & cs & E & HI & HX & HF & HU & HD). rewrite hrun_snoc, E. cbn [rbind]. unfold hstep. destruct (cs !! k) as [[N s pc]|] eqn:Ek; [|eauto 15].
      pose proof (Forall_lookup_1 _ _ _ _ HF Ek) as [HN Hpc]. pose proof (Forall_lookup_1 _ _ _ _ HU Ek) as HU1. cbn in HN, Hpc, HU1.
      destruct pc as [|i|r]; [| |eauto 15].
      + destruct (crit_ok t N s HI HN) as (t' & i & EQ & HI' & (m & Hm & Hs & _) & HT). rewrite EQ. cbn [rbind]. eexists _, _. split; [reflexivity|]. split; [auto|]. split.
        { destruct (crit_exact nf t s HI HX) as (t2 & i2 & EQ2 & HX2); [lia|]. rewrite <- HU1, EQ in EQ2. injection EQ2 as <- <-. auto. }
        split; [|split]; apply Forall_insert; auto; [|split; [auto|]; cbn; eauto|cbn; discriminate].
        eapply List.Forall_impl; [|exact HF]. intros [N' s' pc'] [A B]. split; [auto|]. cbn in *. destruct pc'; auto. destruct B as (m' & B1 & B2).
        destruct (HT _ _ B1) as (m2 & C1 & C2 & _). exists m2. split; auto. congruence.
      + destruct Hpc as (m & Hm & Hs). pose proof (read_right t i N m HI HN Hm) as HR. pose proof (Forall_lookup_1 _ _ _ _ HX Hm) as [_ HB].
        destruct (Nat.leb_spec N (length (blk m))) as [|HBad]; [|rewrite HB, Hs in HBad; lia]. rewrite Hs in HR.
        eexists _, _. split; [reflexivity|]. split; [auto|]. split; [auto|]. split; [|split]; apply Forall_insert; auto; cbn.
        * split; [auto|]. cbn. auto.
        * intros r [= <-]. auto. }
  destruct H as (t & cs & E & _ & _ & _ & _ & HF). exists t, cs. split; [auto|]. intros k N s r Hk. pose proof (Forall_lookup_1 _ _ _ _ HF Hk) as H. cbn in H. auto.
Qed.
Print Assumptions C45_threads_uniform.
Lemma crit_first s : exists x, harmonic_crit [] 2 s = Ok ([Memo s 2 [Some 1%R; Some x]], 0).
Proof. eexists. unfold harmonic_crit. cbn [find_es]. reflexivity. Qed.
Lemma crit_second s x : exists l, length l = 3 /\ harmonic_crit [Memo s 2 [Some 1%R; Some x]] 5 s = Ok ([Memo s 2 (Some 1%R :: Some x :: l)], 0).
Proof. unfold harmonic_crit. cbn [find_es es]. destruct (Req_EM_T s s); [|congruence]. eexists [_;_;_]. split; [reflexivity|]. reflexivity. Qed.
Lemma crit_third s x l : exists y, harmonic_crit [Memo s 2 (Some 1%R :: Some x :: l)] 3 s = Ok ([Memo s 2 [Some 1%R; Some x; Some y]], 0).
Proof. unfold harmonic_crit. cbn [find_es es]. destruct (Req_EM_T s s); [|congruence]. eexists. cbn [lookup list_lookup len blk]. change (2 <=? 3 - 1) with true. cbn iota.
  cbn [Nat.sub extend]. 
  assert (E : exists z, regrow (Some 1%R :: Some x :: l) 3 = [Some 1%R; Some x; z]).
  { unfold regrow. destruct l as [|a l]; cbn; eauto. } destruct E as [z ->]. reflexivity. Qed.
(** Deviation: the result is read after the critical section, and a call for fewer terms shrinks the block: here thread 0 has computed five
    terms and thread 1 then asks for three, so that thread 0 reads outside the block. *)
Theorem C45_race_refuted : forall s, exists t cs, hrun [0; 0; 1; 2; 1] ([], hstarts [(2, s); (5, s); (3, s)]) = Ok (t, cs) /\ cs !! 1 = Some (HC 5 s (HDone UB)).
Proof.
  intros s. destruct (crit_first s) as [x E1]. destruct (crit_second s x) as (l & HL & E2). destruct (crit_third s x l) as [y E3].
  unfold hrun, hstarts. cbn [map fold_left rbind]. cbn [hstep lookup list_lookup]. rewrite E1. cbn [rbind insert list_insert].
  cbn [hstep lookup list_lookup]. cbn [rbind insert list_insert]. cbn [hstep lookup list_lookup]. rewrite E2. cbn [rbind insert list_insert].
  cbn [hstep lookup list_lookup]. rewrite E3. cbn [rbind insert list_insert]. cbn [lookup list_lookup rbind insert list_insert].
  eexists _, _. split; [reflexivity|]. cbn [lookup list_lookup]. do 3 f_equal.
Qed.
Print Assumptions C45_race_refuted.
Example C45_nonvacuous : exists t, hcalls [] [(2%Z, (-1)%R); (0%Z, 3%R); (3%Z, (-1)%R); (2%Z, 0%R)] = Ok (t, [Some (harm 2 (-1)); None; Some (harm 3 (-1)); Some (harm 2 0)]) /\ harm 3 (-1) = 6%R.
Proof.
  destruct (C45_history [(2%Z, (-1)%R); (0%Z, 3%R); (3%Z, (-1)%R); (2%Z, 0%R)]) as (t & E). exists t. split; [exact E|].
  assert (P : forall n, (0 < INR n)%R -> (1 / Rpower (INR n) (-1) = INR n)%R).
  { intros n Hn. change (-1)%R with (- (1))%R. rewrite Rpower_Ropp, Rpower_1 by auto. field. lra. }
  unfold harm, Rsum. cbn [seq map fold_right]. rewrite !P by (cbn; lra). cbn. lra.
Qed.

(** ---------- C46 ---------- *)
Definition starts (s : Z) : rstore := RS [] 0 s.
(** a program asks for threads >= 0 (or -1 for its own) *)
Definition asks_ok (o : rop) : Prop := match o with RGet me th => (0 <= me /\ -1 <= th)%Z | _ => True end.
Definition asked (o : rop) : option Z := match o with RGet me th => Some (if (th =? -1)%Z then me else th) | _ => None end.

Lemma more_spec k : forall st, exists l, rngs (more_rngs k st) = rngs st ++ l /\ length l = k /\ nalloc (more_rngs k st) = nalloc st + k /\ seed (more_rngs k st) = (seed st + Z.of_nat k)%Z /\
  forall i, i < k -> l !! i = Some (Rng (nalloc st + i) (seed st + Z.of_nat i + 1)).
Proof.
  induction k as [|k IH]; intros st; cbn [more_rngs].
  - exists []. rewrite app_nil_r. cbn. repeat split; auto; try lia.
  - destruct (IH (RS (rngs st ++ [Rng (nalloc st) (seed st + 1)]) (S (nalloc st)) (seed st + 1))) as (l & E1 & E2 & E3 & E4 & E5).
    exists (Rng (nalloc st) (seed st + 1) :: l). rewrite E1, E3, E4. cbn [rngs nalloc seed length]. rewrite <- app_assoc. cbn [app].
    repeat split; auto; try lia. intros [|i] Hi; cbn; [f_equal; f_equal; lia|]. rewrite E5 by lia. cbn. f_equal; f_equal; lia.
Qed.
Lemma crit_grow th st : (0 <= th)%Z -> exists l, rngs (rng_crit th st) = rngs st ++ l /\ Z.to_nat th < length (rngs (rng_crit th st)) /\
  nalloc (rng_crit th st) = nalloc st + length l /\ seed (rng_crit th st) = (seed st + Z.of_nat (length l))%Z /\
  forall i, i < length l -> l !! i = Some (Rng (nalloc st + i) (seed st + Z.of_nat i + 1)).
Proof.
  intros Hth. unfold rng_crit. destruct (th >? Z.of_nat (length (rngs st)) - 1)%Z eqn:E.
  - destruct (more_spec (Z.to_nat (th + 1) - length (rngs st)) st) as (l & E1 & E2 & E3 & E4 & E5). exists l. rewrite E1, app_length, E3, E4, E2. repeat split; auto; try lia.
  - exists []. rewrite app_nil_r. cbn. repeat split; auto; try lia.
Qed.
Lemma get_ok me th st : (0 <= me)%Z -> (-1 <= th)%Z -> exists r l, rng_get_thread me th st = Ok (rng_crit (if (th =? -1)%Z then me else th) st, r) /\
  rngs (rng_crit (if (th =? -1)%Z then me else th) st) = rngs st ++ l /\ rngs (rng_crit (if (th =? -1)%Z then me else th) st) !! Z.to_nat (if (th =? -1)%Z then me else th) = Some r.
Proof.
  intros H1 H2. set (t := (if (th =? -1)%Z then me else th)). assert (Ht : (0 <= t)%Z) by (unfold t; destruct (Z.eqb_spec th (-1)); lia).
  destruct (crit_grow t st Ht) as (l & E1 & E2 & _). unfold rng_get_thread. fold t. unfold rng_read. destruct (Z.ltb_spec t 0); [lia|].
  destruct (rngs (rng_crit t st) !! Z.to_nat t) as [r|] eqn:E; [|apply lookup_ge_None in E; lia]. exists r, l. auto.
Qed.
(** the generators handed out so far are where they were; allocation numbers only grow *)
Definition rinv (st : rstore) : Prop := NoDup (map rid (rngs st)) /\ Forall (fun r => rid r < nalloc st) (rngs st).
Lemma more_rinv th st : (0 <= th)%Z -> rinv st -> rinv (rng_crit th st).
Proof.
  intros Ht [H1 H2]. destruct (crit_grow th st Ht) as (l & E1 & _ & E3 & _ & E5). unfold rinv. rewrite E1, E3. 
  assert (HL : map rid l = seq (nalloc st) (length l)).
  { apply list_eq. intros i. rewrite list_lookup_fmap. destruct (decide (i < length l)).
    - rewrite E5, lookup_seq_lt by auto. auto.
    - rewrite (lookup_ge_None_2 l) by lia. rewrite lookup_seq_ge by lia. auto. }
  rewrite map_app, HL. split.
  - apply NoDup_app. split; [auto|]. split; [|apply NoDup_seq]. intros x Hx. rewrite elem_of_seq. apply elem_of_list_fmap in Hx as (r & -> & Hr).
    apply elem_of_list_In in Hr. eapply List.Forall_forall in H2; [|exact Hr]. cbn in H2. lia.
  - apply Forall_app. split; [eapply List.Forall_impl; [|exact H2]; cbn; intros; lia|]. apply List.Forall_forall. intros r Hr.
    assert (Hi : In (rid r) (map rid l)) by (apply in_map; auto). rewrite HL in Hi. apply in_seq in Hi. lia.
Qed.
Lemma rstep_ok o st : asks_ok o -> rinv st -> exists st' a, rstep o st = Ok (st', a) /\ rinv st' /\ (exists l, rngs st' = rngs st ++ l) /\
  match asked o with Some t => exists r, a = Some r /\ rngs st' !! Z.to_nat t = Some r | None => a = None end.
Proof.
  intros Ho HI. destruct o as [me th|s|]; cbn [rstep asked].
  - destruct Ho as [H1 H2]. destruct (get_ok me th st H1 H2) as (r & l & E & E1 & E2). rewrite E. cbn [rbind]. eexists _, _. split; [reflexivity|].
    split; [|split; [eauto|eauto]]. apply more_rinv; auto. destruct (Z.eqb_spec th (-1)); lia.
  - eexists _, _. split; [reflexivity|]. split; [auto|]. split; [exists []; rewrite app_nil_r|]; auto.
  - eexists _, _. split; [reflexivity|]. split; [|split; [exists []; rewrite app_nil_r|]; auto]. destruct HI as [H1 H2]. split; auto. cbn. eapply List.Forall_impl; [|exact H2]. cbn. lia.
Qed.
Lemma rrun_ok os : forall st, Forall asks_ok os -> rinv st -> exists st' l, rrun os st = Ok (st', l) /\ rinv st' /\ (exists k, rngs st' = rngs st ++ k) /\ length l = length os /\
  forall i o t, os !! i = Some o -> asked o = Some t -> exists r, l !! i = Some (Some r) /\ rngs st' !! Z.to_nat t = Some r.
Proof.
  induction os as [|o os IH]; intros st Ho HI; cbn [rrun].
  - eexists _, _. split; [reflexivity|]. split; [auto|]. split; [exists []; rewrite app_nil_r; auto|]. split; [auto|]. intros i o t H. discriminate.
  - inversion Ho as [|? ? H1 H2]; subst. destruct (rstep_ok o st H1 HI) as (s1 & a & -> & HI1 & (k1 & Hk1) & HA). cbn [rbind].
    destruct (IH s1 H2 HI1) as (s2 & l & -> & HI2 & (k2 & Hk2) & HL & HR). cbn [rbind]. eexists _, _. split; [reflexivity|]. split; [auto|].
    split; [exists (k1 ++ k2); rewrite Hk2, Hk1, app_assoc; auto|]. split; [cbn; auto|]. intros [|i] o' t Hi Ht.
    + cbn in Hi. injection Hi as <-. rewrite Ht in HA. destruct HA as (r & -> & Hr). exists r. split; auto. rewrite Hk2. apply lookup_app_l_Some. auto.
    + cbn in Hi |- *. eauto.
Qed.
Lemma starts_inv s : rinv (starts s).
Proof. split; constructor. Qed.
(** C46: in every program each request succeeds; two requests get the same generator exactly if they are for the same thread. *)
Theorem C46_stable : forall s os, Forall asks_ok os -> exists st l, rrun os (starts s) = Ok (st, l) /\
  forall i j oi oj ti tj, os !! i = Some oi -> os !! j = Some oj -> asked oi = Some ti -> asked oj = Some tj ->
    exists a b, l !! i = Some (Some a) /\ l !! j = Some (Some b) /\ (ti = tj -> a = b) /\ (ti <> tj -> rid a <> rid b).
Proof.
  intros s os Ho. destruct (rrun_ok os (starts s) Ho (starts_inv s)) as (st & l & E & [HN _] & _ & _ & HR). exists st, l. split; [auto|].
  intros i j oi oj ti tj H1 H2 H3 H4. destruct (HR _ _ _ H1 H3) as (a & A1 & A2). destruct (HR _ _ _ H2 H4) as (b & B1 & B2). exists a, b. split; [auto|]. split; [auto|]. split.
  - intros ->. congruence.
  - intros Hne Heq. apply Hne. assert (Ha : Forall (fun o => forall t, asked o = Some t -> (0 <= t)%Z) os).
    { eapply List.Forall_impl; [|exact Ho]. intros [me th|s'|]; cbn; try discriminate. intros [? ?] t [= <-]. destruct (Z.eqb_spec th (-1)); lia. }
    pose proof (Forall_lookup_1 _ _ _ _ Ha H1 _ H3). pose proof (Forall_lookup_1 _ _ _ _ Ha H2 _ H4).
    assert (Z.to_nat ti = Z.to_nat tj); [|lia]. eapply (NoDup_lookup (map rid (rngs st))); [auto| |].
    + rewrite list_lookup_fmap, A2. reflexivity.
    + rewrite list_lookup_fmap, B2. cbn. congruence.
Qed.
Print Assumptions C46_stable.
(** C46: if the program does not set the seed, thread number t has the seed s + t + 1, whatever the order of the requests. *)
Theorem C46_seeds : forall s os, Forall asks_ok os -> (forall v, ~ In (RSeed v) os) -> exists st l, rrun os (starts s) = Ok (st, l) /\
  forall i o t, os !! i = Some o -> asked o = Some t -> exists r, l !! i = Some (Some r) /\ rseed r = (s + t + 1)%Z.
Proof.
  intros s os Ho HS. destruct (rrun_ok os (starts s) Ho (starts_inv s)) as (st & l & E & _ & _ & _ & HR). exists st, l. split; [auto|].
  assert (H : forall os st0 st1 l1, Forall asks_ok os -> (forall v, ~ In (RSeed v) os) -> (forall i r, rngs st0 !! i = Some r -> rseed r = (s + Z.of_nat i + 1)%Z) ->
    seed st0 = (s + Z.of_nat (length (rngs st0)))%Z -> rrun os st0 = Ok (st1, l1) -> forall i r, rngs st1 !! i = Some r -> rseed r = (s + Z.of_nat i + 1)%Z).
  { clear. induction os as [|o os IH]; intros st0 st1 l1 Ho HS H1 H2 E; cbn [rrun] in E; [injection E as <- <-; auto|].
    inversion Ho as [|? ? Ho1 Ho2]; subst. destruct o as [me th|v|]; cbn [rstep rbind] in E.
    - destruct Ho1 as [G1 G2]. destruct (get_ok me th st0 G1 G2) as (r & k & EE & _ & _). rewrite EE in E. cbn [rbind] in E.
      set (t := (if (th =? -1)%Z then me else th)) in *. assert (Ht : (0 <= t)%Z) by (unfold t; destruct (Z.eqb_spec th (-1)); lia).
      destruct (crit_grow t st0 Ht) as (k' & K1 & _ & _ & K4 & K5). destruct (rrun os (rng_crit t st0)) as [[s2 l2]| |] eqn:E2; try discriminate. injection E as <- <-.
      eapply IH; [auto|intros v Hv; apply (HS v); right; auto| | |exact E2].
      + intros i r' Hr'. rewrite K1 in Hr'. apply lookup_app_Some in Hr' as [Hr'|[Hi Hr']]; [eauto|].
        assert (Hlt : i - length (rngs st0) < length k') by (eapply lookup_lt_Some; eauto). rewrite K5 in Hr' by auto. injection Hr' as <-. cbn. lia.
      + rewrite K1, app_length, K4. lia.
    - exfalso. apply (HS v). left. auto.
    - destruct (rrun os _) as [[s2 l2]| |] eqn:E2; try discriminate. injection E as <- <-. eapply IH; [auto|intros v Hv; apply (HS v); right; auto| | |exact E2]; cbn; auto. }
  intros i o t Hi Ht. destruct (HR _ _ _ Hi Ht) as (r & A & B). exists r. split; [auto|].
  assert (Hp : (0 <= t)%Z). { pose proof (Forall_lookup_1 _ _ _ _ Ho Hi) as Q. destruct o as [me th| |]; try discriminate. injection Ht as <-. destruct Q. destruct (Z.eqb_spec th (-1)); lia. }
  pose proof (fun A1 A2 => H os (starts s) st l Ho HS A1 A2 E _ _ B) as Q. cbn in Q. rewrite Q; [lia| |lia]. intros i' r' Hr'. discriminate.
Qed.
Print Assumptions C46_seeds.
Example C46_nonvacuous : exists st, rrun [RGet 0 2; RAlloc; RGet 1 (-1)] (starts 0) = Ok (st, [Some (Rng 2 3); None; Some (Rng 1 2)]).
Proof. eexists. reflexivity. Qed.
(** Deviations.  A negative thread number other than -1 reads before the array. *)
Theorem C46_negative_refuted : forall me st, rng_get_thread me (-2) st = UB.
Proof. intros me st. reflexivity. Qed.
(** Two threads get streams with the same seed if the program sets the seed in between. *)
Theorem C46_seed_refuted : exists st, rrun [RGet 0 0; RSeed 0; RGet 0 1] (starts 0) = Ok (st, [Some (Rng 0 1); None; Some (Rng 1 1)]).
Proof. eexists. reflexivity. Qed.
(** The array is read after the critical section: a thread that has loaded the array pointer reads freed memory if another call makes the array grow. *)
Theorem C46_race_refuted : rcalls (fold_left (fun m k => rmstep k m) [0; 0; 1; 0] (RM 0 (starts 0) [(0%Z, RP0); (1%Z, RP0)])) !! 0 = Some (0%Z, RP3 UB).
Proof. reflexivity. Qed.
(** C46: calls by several threads, interleaved at every memory access, for generators that exist already all get the generator of their thread. *)
Theorem C46_threads : forall sched st ths, Forall (fun th => 0 <= th < Z.of_nat (length (rngs st)))%Z ths ->
  forall k th r, rcalls (fold_left (fun m k => rmstep k m) sched (RM 0 st (map (fun th => (th, RP0)) ths))) !! k = Some (th, RP3 r) ->
    ths !! k = Some th /\ exists g, r = Ok g /\ rngs st !! Z.to_nat th = Some g.
Proof.
  intros sched st ths HT.
  set (fine := fun c : Z * rpc => (0 <= fst c < Z.of_nat (length (rngs st)))%Z /\ match snd c with RP2 b => b = 0 | RP3 r => exists g, r = Ok g /\ rngs st !! Z.to_nat (fst c) = Some g | _ => True end).
  assert (H : exists cs, fold_left (fun m k => rmstep k m) sched (RM 0 st (map (fun th => (th, RP0)) ths)) = RM 0 st cs /\ map fst cs = ths /\ Forall fine cs).
  { induction sched as [|k sched IH] using rev_ind.
    - eexists. split; [reflexivity|]. split; [rewrite map_map; apply map_id|]. apply Forall_map. eapply List.Forall_impl; [|exact HT]. intros th H. split; cbn; auto.
    - destruct IH as (cs & E & HM & HF). rewrite fold_left_app, E. cbn [fold_left]. unfold rmstep. cbn [rcalls rst rcur].
      destruct (cs !! k) as [[th pc]|] eqn:Ek; [|eauto]. pose proof (Forall_lookup_1 _ _ _ _ HF Ek) as [HR Hpc]. cbn in HR, Hpc.
      assert (HMap : forall pc', map fst (<[k := (th, pc')]> cs) = ths).
      { intros pc'. rewrite <- HM. apply list_eq. intros i. rewrite !list_lookup_fmap. destruct (decide (i = k)) as [->|]; [|rewrite list_lookup_insert_ne by auto; auto].
        rewrite list_lookup_insert by (eapply lookup_lt_Some; eauto). rewrite Ek. auto. }
      assert (EC : rng_crit th st = st) by (unfold rng_crit; destruct (th >? _)%Z eqn:EE; [lia|auto]).
      destruct pc as [| |b|r].
      + rewrite EC. destruct (Nat.ltb_spec (length (rngs st)) (length (rngs st))); [lia|]. eexists. split; [reflexivity|]. split; [auto|]. apply Forall_insert; auto. split; cbn; auto.
      + eexists. split; [reflexivity|]. split; [auto|]. apply Forall_insert; auto. split; cbn; auto.
      + subst b. eexists. split; [reflexivity|]. split; [auto|]. apply Forall_insert; auto. split; [auto|]. cbn [fst snd Nat.eqb]. unfold rng_read. destruct (Z.ltb_spec th 0); [lia|].
        destruct (rngs st !! Z.to_nat th) as [g|] eqn:Eg; [eauto|]. apply lookup_ge_None in Eg. lia.
      + eauto. }
  destruct H as (cs & -> & HM & HF). cbn [rcalls]. intros k th r Hk. pose proof (Forall_lookup_1 _ _ _ _ HF Hk) as [_ H]. split; [|exact H].
  rewrite <- HM, list_lookup_fmap, Hk. auto.
Qed.
Print Assumptions C46_threads.
