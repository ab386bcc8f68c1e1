(** C73, C74: raking.  Vocabulary in RakeSpec. *)
From Coq Require Import Reals Lra.
From Verif Require Import DataModel StatsModel StatsSpec StatsProofs FactModel FactProofs RakeModel RakeSpec RakeProofs.
Local Open Scope list_scope.
Local Open Scope R_scope.

(** ---------- lists of weights ---------- *)
Lemma Rsum_zip_ge {A B} (f g : A -> B -> R) : forall (l : list A) (w : list B), (forall a x, In x w -> f a x <= g a x) -> Rsum (zip_with f l w) <= Rsum (zip_with g l w).
Proof. induction l as [|a l IH]; intros [|x w] H; cbn [zip_with]; rewrite ?Rsum_nil, ?Rsum_cons; try lra. pose proof (H a x (or_introl eq_refl)). specialize (IH w (fun a x Hx => H a x (or_intror Hx))). lra. Qed.
Lemma nonneg_Forall l : nonnegative l <-> List.Forall (fun x => 0 <= x) l.
Proof. unfold nonnegative. rewrite List.Forall_forall. tauto. Qed.
Definition dist (a b : list R) : R := Rsum (zip_with (fun x y => Rabs (x - y)) a b).
Lemma dist_self a : dist a a = 0.
Proof. unfold dist. induction a as [|x a IH]; [reflexivity|]. cbn [zip_with]. rewrite Rsum_cons, IH. unfold Rminus. rewrite Rplus_opp_r, Rabs_R0. lra. Qed.
Lemma dist_tri a : forall b c, length a = length b -> length b = length c -> dist a c <= dist a b + dist b c.
Proof.
  unfold dist. induction a as [|x a IH]; intros [|y b] [|z c] H1 H2; try discriminate; cbn [zip_with]; rewrite ?Rsum_nil, ?Rsum_cons; [lra|]. cbn in H1, H2. specialize (IH b c ltac:(lia) ltac:(lia)).
  pose proof (Rabs_triang (x - y) (y - z)). replace (x - y + (y - z)) with (x - z) in H by lra. lra.
Qed.
(** what is zero stays zero *)
Definition zle (a b : list R) : Prop := Forall2 (fun x y => x = 0 -> y = 0) a b.
Lemma zle_refl a : zle a a. Proof. induction a; constructor; auto. Qed.
Lemma zle_trans a : forall b c, zle a b -> zle b c -> zle a c.
Proof. induction a as [|x a IH]; intros b c H1 H2; inversion H1; subst; inversion H2; subst; constructor; eauto. eapply IH; eauto. Qed.
Lemma margin_zle c k : forall rows a b, nonnegative a -> zle a b -> margin c rows a k = 0 -> margin c rows b k = 0.
Proof.
  unfold margin. induction rows as [|r rows IH]; intros a b Hn Hz; [reflexivity|]. destruct Hz as [|x y a b Hxy Hz]; cbn [zip_with]; [auto|]. rewrite !Rsum_cons.
  assert (Hna : nonnegative a) by (intros z Hin; apply Hn; right; auto). pose proof (Hn x (or_introl eq_refl)).
  assert (0 <= Rsum (zip_with (fun c0 x => if key_dec (key c c0) k then x else 0) rows a)).
  { apply Rsum_nonneg. apply List.Forall_forall. intros z Hin. apply elem_of_list_In, elem_of_list_lookup in Hin as (i & Hi). rewrite lookup_zip_with in Hi. destruct (rows !! i); [|discriminate]. cbn in Hi. destruct (a !! i) as [q|] eqn:Eq; [|discriminate]. cbn in Hi. injection Hi as <-. destruct (key_dec _ _); [|lra]. apply Hna. apply elem_of_list_In. eapply elem_of_list_lookup_2; eauto. }
  intros E. destruct (key_dec (key c r) k); [rewrite (Hxy ltac:(lra)); rewrite (IH a b); auto; lra|rewrite (IH a b); auto; lra].
Qed.
Lemma margin_nonneg c k : forall rows a, nonnegative a -> 0 <= margin c rows a k.
Proof.
  unfold margin. induction rows as [|r rows IH]; intros [|x a] Hn; cbn [zip_with]; rewrite ?Rsum_nil, ?Rsum_cons; try lra. pose proof (Hn x (or_introl eq_refl)). specialize (IH a ltac:(intros z Hz; apply Hn; right; auto)). destruct (key_dec _ _); lra.
Qed.
Lemma margin_dist c k : forall rows a b, length a = length rows -> length b = length rows -> Rabs (margin c rows a k - margin c rows b k) <= dist a b.
Proof.
  unfold margin, dist. induction rows as [|r rows IH]; intros [|x a] [|y b] H1 H2; try discriminate; cbn [zip_with]; rewrite ?Rsum_nil, ?Rsum_cons; [unfold Rminus; rewrite Rplus_opp_r, Rabs_R0; lra|]. cbn in H1, H2.
  specialize (IH a b ltac:(lia) ltac:(lia)). set (u := Rsum _) in IH at 1. set (v := Rsum _) in IH at 1. fold u v. pose proof (Rabs_pos (x - y)). destruct (key_dec _ _).
  - pose proof (Rabs_triang (x - y) (u - v)). replace (x + u - (y + v)) with (x - y + (u - v)) by lra. lra.
  - replace (0 + u - (0 + v)) with (u - v) by lra. lra.
Qed.
Lemma margin_other c k k' q : k' <> k -> forall rows w, margin c rows (zip_with (fun r x => if key_dec (key c r) k then x * q else x) rows w) k' = margin c rows w k'.
Proof.
  intros Hne. unfold margin. induction rows as [|r rows IH]; intros [|x w]; auto. cbn [zip_with]. rewrite !Rsum_cons, IH. destruct (key_dec (key c r) k), (key_dec (key c r) k'); auto; congruence.
Qed.
Lemma margin_scaled c k q : forall rows w, margin c rows (zip_with (fun r x => if key_dec (key c r) k then x * q else x) rows w) k = margin c rows w k * q.
Proof.
  unfold margin. induction rows as [|r rows IH]; intros [|x w]; cbn [zip_with]; rewrite ?Rsum_nil, ?Rsum_cons; try lra. rewrite IH. destruct (key_dec (key c r) k); lra.
Qed.
Lemma dist_scaled c k q : forall rows w, nonnegative w -> length w = length rows -> dist w (zip_with (fun r x => if key_dec (key c r) k then x * q else x) rows w) = margin c rows w k * Rabs (1 - q).
Proof.
  unfold margin, dist. induction rows as [|r rows IH]; intros [|x w] Hn Hl; try discriminate; cbn [zip_with]; rewrite ?Rsum_nil, ?Rsum_cons; try lra. cbn in Hl. rewrite IH by (try lia; intros z Hz; apply Hn; right; auto). pose proof (Hn x (or_introl eq_refl)).
  destruct (key_dec (key c r) k).
  - replace (x - x * q) with (x * (1 - q)) by lra. rewrite Rabs_mult, (Rabs_right x) by lra. lra.
  - unfold Rminus at 1. rewrite Rplus_opp_r, Rabs_R0. lra.
Qed.

(** ---------- steps, passes and rounds ---------- *)
Section pure.
  Context (mrows : list (list num)) (mw : list R) (frows : list (list num)) (width : nat) (Hmw : nonnegative mw).
  Notation gstep := (gstep mrows mw frows).
  Notation target := (target mrows mw).
  Notation pass := (pass mrows mw frows width).
  Notation all_pass := (all_pass mrows mw frows width).
  Notation keys := (keys mrows width).
  Definition good (w : list R) : Prop := nonnegative w /\ length w = length frows.
  Definition skip (c : list bool) (first : bool) (w : list R) (k : list num) : Prop := (first = false /\ target c k = 0) \/ margin c frows w k = 0.
  Lemma gstep_cases c first w dev k : (skip c first w k /\ gstep c first (w, dev) k = (w, dev)) \/
    (~ skip c first w k /\ margin c frows w k <> 0 /\ gstep c first (w, dev) k = (zip_with (fun r x => if key_dec (key c r) k then x * (target c k / margin c frows w k) else x) frows w, Rmax (Rabs (margin c frows w k - target c k)) dev)).
  Proof.
    unfold RakeProofs.gstep, skip. destruct first; cbn [negb andb orb].
    - unfold bool_of. destruct (Req_EM_T (margin c frows w k) 0); [left; split; [right|]; auto|right]. split; [intros [[? _]|]; auto; discriminate|auto].
    - unfold bool_of. destruct (Req_EM_T (target c k) 0); cbn [orb]; [left; split; [left|]; auto|]. destruct (Req_EM_T (margin c frows w k) 0); [left; split; [right|]; auto|right]. split; [intros [[_ ?]|]; auto|auto].
  Qed.
  Lemma target_nonneg c k : 0 <= target c k. Proof. apply margin_nonneg. auto. Qed.
  Lemma gstep_good c first s k : good (fst s) -> good (fst (gstep c first s k)) /\ zle (fst s) (fst (gstep c first s k)) /\ snd s <= snd (gstep c first s k) /\
    dist (fst s) (fst (gstep c first s k)) <= Rmax 0 (snd (gstep c first s k)).
  Proof.
    destruct s as [w dev]. cbn [fst snd]. intros [Hn Hl]. destruct (gstep_cases c first w dev k) as [[_ ->]|(_ & Hne & ->)]; cbn [fst snd].
    - split; [split; auto|]. split; [apply zle_refl|]. split; [lra|]. rewrite dist_self. apply Rmax_l.
    - pose proof (margin_nonneg c k frows w Hn). pose proof (target_nonneg c k). set (fs := margin c frows w k) in *. set (t := target c k) in *.
      assert (Hq : 0 <= t / fs) by (apply Rmult_le_pos; [auto|left; apply Rinv_0_lt_compat; lra]).
      split; [split|split; [|split]].
      + intros x Hx. apply elem_of_list_In, elem_of_list_lookup in Hx as (i & Hi). rewrite lookup_zip_with in Hi. destruct (frows !! i); [|discriminate]. cbn in Hi. destruct (w !! i) as [y|] eqn:Ey; [|discriminate]. cbn in Hi. injection Hi as <-.
        assert (0 <= y) by (apply Hn; apply elem_of_list_In; eapply elem_of_list_lookup_2; eauto). destruct (key_dec _ _); auto. apply Rmult_le_pos; auto.
      + rewrite zip_with_length. lia.
      + generalize (t / fs). intros q. clear -Hl. revert w Hl. induction frows as [|r rows IH]; intros [|x w] Hl; try discriminate; cbn [zip_with]; constructor; [|apply IH; cbn in Hl; lia]. intros ->. destruct (key_dec _ _); lra.
      + apply Rmax_r.
      + rewrite dist_scaled by auto. fold fs. assert (E : fs * Rabs (1 - t / fs) = Rabs (fs - t)). { rewrite <- (Rabs_right fs) at 1 by lra. rewrite <- Rabs_mult. f_equal. field. auto. }
        rewrite E. eapply Rle_trans; [|apply Rmax_r]. apply Rmax_l.
  Qed.
  Lemma Rmax0 a : 0 <= a -> Rmax 0 a = a. Proof. intros. apply Rmax_right. auto. Qed.
  Lemma steps_good c first : forall ks s, good (fst s) -> 0 <= snd s -> let s' := fold_left (gstep c first) ks s in
    good (fst s') /\ zle (fst s) (fst s') /\ snd s <= snd s' /\ dist (fst s) (fst s') <= INR (length ks) * snd s'.
  Proof.
    induction ks as [|k ks IH]; intros s Hg Hs; cbn [fold_left].
    - split; [auto|]. split; [apply zle_refl|]. split; [lra|]. rewrite dist_self. cbn. lra.
    - destruct (gstep_good c first s k Hg) as (G1 & Z1 & D1 & X1). rewrite Rmax0 in X1 by lra. destruct (IH (gstep c first s k) G1 ltac:(lra)) as (G2 & Z2 & D2 & X2). set (s2 := fold_left _ ks _) in *.
      split; [auto|]. split; [eapply zle_trans; eauto|]. split; [lra|]. cbn [length]. rewrite S_INR. eapply Rle_trans; [apply (dist_tri _ (fst (gstep c first s k))); [destruct Hg, G1; lia|destruct G1, G2; lia]|]. lra.
  Qed.
  (** the margin after the pass over the combinations *)
  Lemma steps_margin_out c first k : forall ks s, ~ In k ks -> margin c frows (fst (fold_left (gstep c first) ks s)) k = margin c frows (fst s) k.
  Proof.
    induction ks as [|k' ks IH]; intros [w dev] Hn; auto. cbn [fold_left]. rewrite IH by (intros H; apply Hn; right; auto). destruct (gstep_cases c first w dev k') as [[_ ->]|(_ & _ & ->)]; auto. cbn [fst]. apply margin_other. intros ->. apply Hn. left. auto.
  Qed.
  Lemma steps_margin c first k : forall ks s, List.NoDup ks -> In k ks -> 
    let s' := fold_left (gstep c first) ks s in
    (skip c first (fst s) k /\ margin c frows (fst s') k = margin c frows (fst s) k) \/ (~ skip c first (fst s) k /\ margin c frows (fst s') k = target c k /\ (forall w, skip c first w k <-> (first = false /\ target c k = 0) \/ margin c frows w k = 0)).
  Proof.
    induction ks as [|k' ks IH]; intros [w dev] Hnd Hin; [destruct Hin|]. inversion Hnd as [|? ? Hk' Hnd']; subst. cbn [fold_left fst]. destruct (key_dec k' k) as [->|Hne].
    - rewrite steps_margin_out by auto. destruct (gstep_cases c first w dev k) as [[Hs ->]|(Hs & Hn & ->)]; cbn [fst].
      + left. auto.
      + right. split; [auto|]. split; [|intros; reflexivity]. rewrite margin_scaled. field. auto.
    - destruct Hin as [|Hin]; [congruence|]. assert (E : margin c frows (fst (gstep c first (w, dev) k')) k = margin c frows w k).
      { destruct (gstep_cases c first w dev k') as [[_ ->]|(_ & _ & ->)]; auto. cbn [fst]. apply margin_other. auto. }
      destruct (IH (gstep c first (w, dev) k') Hnd' Hin) as [[Hs E2]|(Hs & E2 & _)].
      + left. unfold skip in *. rewrite E in Hs, E2. auto.
      + right. unfold skip in *. rewrite E in Hs. split; [auto|]. split; [auto|]. intros. tauto.
  Qed.
  Lemma keys_nodup c : List.NoDup (keys c).
  Proof. apply combos_nodup. apply List.Forall_forall. intros l Hl. apply in_map_iff in Hl as (i & <- & _). eapply ssorted_nodup; [apply ncmp_good|]. apply ucol_ok. Qed.
  Definition size (config : list (list bool)) : nat := fold_right (fun c n => (length (keys c) + n)%nat) 0%nat config.
  Lemma all_good first : forall config s, good (fst s) -> 0 <= snd s -> let s' := all_pass config first s in
    good (fst s') /\ zle (fst s) (fst s') /\ snd s <= snd s' /\ dist (fst s) (fst s') <= INR (size config) * snd s'.
  Proof.
    induction config as [|c config IH]; intros s Hg Hs.
    - split; [auto|]. split; [apply zle_refl|]. split; [cbn; lra|]. cbn. rewrite dist_self. lra.
    - destruct (steps_good c first (keys c) s Hg Hs) as (G1 & Z1 & D1 & X1). change (fold_left (gstep c first) (keys c) s) with (pass c first s) in *. destruct (IH (pass c first s) G1 ltac:(lra)) as (G2 & Z2 & D2 & X2).
      change (all_pass (c :: config) first s) with (all_pass config first (pass c first s)). set (s2 := all_pass config first (pass c first s)) in *. cbv zeta.
      split; [auto|]. split; [eapply zle_trans; eauto|]. split; [lra|]. cbn [size fold_right]. fold (size config). rewrite plus_INR. eapply Rle_trans; [apply (dist_tri _ (fst (pass c first s))); [destruct Hg, G1; lia|destruct G1, G2; lia]|].
      assert (INR (length (keys c)) * snd (pass c first s) <= INR (length (keys c)) * snd s2) by (apply Rmult_le_compat_l; [apply pos_INR|lra]). lra.
  Qed.
  (** after a first pass, the combinations with nothing in the margins are empty *)
  Definition cleared (config : list (list bool)) (w : list R) : Prop := forall c k, In c config -> In k (keys c) -> target c k = 0 -> margin c frows w k = 0.
  Lemma all_split pre c post first s : all_pass (pre ++ c :: post) first s = all_pass post first (pass c first (all_pass pre first s)).
  Proof. unfold RakeProofs.all_pass. rewrite fold_left_app. reflexivity. Qed.
  Lemma all_margin config first s c k : good (fst s) -> 0 <= snd s -> (first = false -> cleared config (fst s)) -> In c config -> In k (keys c) ->
    let s' := all_pass config first s in
    margin c frows (fst s') k <> 0 -> Rabs (margin c frows (fst s') k - target c k) <= INR (size config) * snd s'.
  Proof.
    intros Hg Hs Hc Hin Hk s' Hne. apply in_split in Hin as (pre & post & ->). unfold s' in *. rewrite all_split in *. clear s'.
    destruct (all_good first pre s Hg Hs) as (G1 & Z1 & D1 & _). set (s1 := all_pass pre first s) in *.
    destruct (steps_good c first (keys c) s1 G1 ltac:(lra)) as (G2 & Z2 & D2 & _). change (fold_left (gstep c first) (keys c) s1) with (pass c first s1) in *.
    destruct (all_good first post (pass c first s1) G2 ltac:(lra)) as (G3 & Z3 & D3 & X3). set (s3 := all_pass post first (pass c first s1)) in *.
    destruct (steps_margin c first k (keys c) s1 (keys_nodup c) Hk) as [[Hsk E]|(_ & E & _)]; change (fold_left (gstep c first) (keys c) s1) with (pass c first s1) in *.
    - exfalso. apply Hne. destruct G2 as [N2 _]. apply (margin_zle c k frows (fst (pass c first s1))); auto. destruct G1 as [N1 _]. destruct Hsk as [[-> Ht]|H0]; [|congruence].
      apply (margin_zle c k frows (fst s)); [apply Hg|eapply zle_trans; eauto|]. apply Hc; auto. apply in_elt.
    - rewrite <- E. rewrite Rabs_minus_sym. eapply Rle_trans; [apply margin_dist; [apply G2|apply G3]|]. eapply Rle_trans; [exact X3|]. apply Rmult_le_compat_r; [lra|]. apply le_INR.
      clear. induction pre as [|c' pre IH]; cbn [app size fold_right]; [fold (size post); lia|]. fold (size (pre ++ c :: post)). lia.
  Qed.
  Lemma all_cleared config first s : good (fst s) -> 0 <= snd s -> (first = false -> cleared config (fst s)) -> cleared config (fst (all_pass config first s)).
  Proof.
    intros Hg Hs Hc c k Hin Hk Ht. destruct first eqn:Ef.
    - apply in_split in Hin as (pre & post & ->). rewrite all_split.
      destruct (all_good true pre s Hg Hs) as (G1 & Z1 & D1 & _). set (s1 := all_pass pre true s) in *. destruct (steps_good c true (keys c) s1 G1 ltac:(lra)) as (G2 & Z2 & D2 & _). change (fold_left (gstep c true) (keys c) s1) with (pass c true s1) in *.
      destruct (all_good true post (pass c true s1) G2 ltac:(lra)) as (G3 & Z3 & D3 & X3). apply (margin_zle c k frows (fst (pass c true s1))); auto; [apply G2|].
      destruct (steps_margin c true k (keys c) s1 (keys_nodup c) Hk) as [[[[H _]|H] E]|(_ & E & _)]; change (fold_left (gstep c true) (keys c) s1) with (pass c true s1) in *; try discriminate; congruence.
    - destruct (all_good false config s Hg Hs) as (G1 & Z1 & _). apply (margin_zle c k frows (fst s)); auto; [apply Hg|]. apply Hc; auto.
  Qed.
  (** the rounds *)
  Lemma prounds_inv (P : list R -> Prop) config tol : (forall w first, P w -> P (fst (all_pass config first (w, 0)))) -> forall n k w, P w -> P (fst (prounds mrows mw frows width config tol n k w)).
  Proof. intros H. induction n as [|n IH]; intros k w Hw; cbn [prounds]; auto. destruct (Rlt_dec _ _); [apply H; auto|apply IH; apply H; auto]. Qed.
  Lemma prounds_last config tol : forall n k w, (1 <= k)%nat -> good w -> (k <> 1%nat -> cleared config w) -> (1 <= n)%nat ->
    let o := prounds mrows mw frows width config tol n k w in
    exists w1 first, good w1 /\ (first = false -> cleared config w1) /\ fst o = fst (all_pass config first (w1, 0)) /\ ((snd o < k + n)%nat -> snd (all_pass config first (w1, 0)) < tol).
  Proof.
    induction n as [|n IH]; intros k w Hk Hg Hc Hn; [lia|]. cbn [prounds]. assert (Hc' : (k =? 1)%nat = false -> cleared config w) by (intros E; apply Hc; apply Nat.eqb_neq; auto).
    destruct (Rlt_dec (snd (all_pass config (k =? 1)%nat (w, 0))) tol) as [Hl|Hl].
    - exists w, (k =? 1)%nat. auto.
    - destruct (all_good (k =? 1)%nat config (w, 0) Hg ltac:(cbn; lra)) as (G1 & _). pose proof (all_cleared config (k =? 1)%nat (w, 0) Hg ltac:(cbn; lra) Hc') as C1.
      destruct n as [|n].
      + cbn [prounds fst snd]. exists w, (k =? 1)%nat. split; [auto|]. split; [auto|]. split; [auto|]. lia.
      + destruct (IH (S k) (fst (all_pass config (k =? 1)%nat (w, 0))) ltac:(lia) G1 ltac:(auto) ltac:(lia)) as (w1 & first & ? & ? & ? & H). exists w1, first. split; [auto|]. split; [auto|]. split; [auto|]. intros. apply H. lia.
  Qed.
  Lemma prounds_k config tol : forall n k w, (k <= snd (prounds mrows mw frows width config tol n k w) <= k + n)%nat.
  Proof. induction n as [|n IH]; intros k w; cbn [prounds]; [cbn; lia|]. destruct (Rlt_dec _ _); cbn [snd]; [lia|]. specialize (IH (S k) (fst (all_pass config (k =? 1)%nat (w, 0)))). lia. Qed.
End pure.

(** ---------- from the specification's terms ---------- *)
Lemma keep_seq_in : forall c s n i, In i (keep_by c (seq s n)) -> (s <= i < s + n)%nat /\ c !! (i - s)%nat = Some true.
Proof.
  induction c as [|b c IH]; intros s [|n] i H; try (destruct H; fail). cbn [seq keep_by] in H. assert (In i (keep_by c (seq (S s) n)) -> (s <= i < s + S n)%nat /\ (b :: c) !! (i - s)%nat = Some true).
  { intros X. apply IH in X as [X1 X2]. split; [lia|]. replace (i - s)%nat with (S (i - S s)) by lia. auto. }
  destruct b; auto. destruct H as [<-|H]; auto. split; [lia|]. rewrite Nat.sub_diag. auto.
Qed.
Lemma keep_seq_some : forall c s n, length c = n -> In true c -> keep_by c (seq s n) <> [].
Proof. induction c as [|b c IH]; intros s [|n] Hl Hin; try discriminate; [destruct Hin|]. cbn [seq keep_by]. destruct b; [discriminate|]. destruct Hin as [|Hin]; [discriminate|]. apply IH; auto. Qed.
Lemma valid_facts width mrows mw frows w config : valid width mrows mw frows w config ->
  rect width mrows /\ rect width frows /\ nan_known mrows frows width /\ length mw = length mrows /\ length w = length frows /\ (forall c, In c config -> sel width c <> []) /\ Rsum w <> 0.
Proof.
  intros (H1 & H2 & H3 & H4 & H5 & H6 & H7). unfold rect. rewrite !List.Forall_forall. split; [auto|]. split; [auto|]. split; [|split; [auto|]; split; [auto|]; split; [|auto]].
  - intros i r Hi Hr E. specialize (H2 r Hr). unfold at_ in E. destruct (r !! i) as [x|] eqn:Ex; [|apply lookup_ge_None in Ex; lia]. rewrite (nth_lookup_Some _ _ _ _ Ex) in E. subst x. destruct (H7 i r Hr Ex) as (r' & Hr' & E'). exists r'. split; auto. unfold at_. rewrite (nth_lookup_Some _ _ _ _ E'). auto.
  - intros c Hc. destruct (H5 c Hc). apply keep_seq_some; auto.
Qed.
Lemma known_key width mrows c r : rect width mrows -> length r = width -> known c mrows r -> In (key c r) (keys mrows width c).
Proof.
  intros Hm Hr Hk. rewrite (key_sel width) by auto. unfold keys. apply combos_in. unfold sel.
  assert (H : forall i, In i (keep_by c (seq 0 width)) -> In (at_ r i) (ucol mrows i)).
  { intros i Hi. apply keep_seq_in in Hi as [Hi Hc]. rewrite Nat.sub_0_r in Hc. destruct (r !! i) as [x|] eqn:Ex; [|apply lookup_ge_None in Ex; lia]. destruct (Hk i x Hc Ex) as (r' & Hr' & E'). apply ucol_ok. unfold colvals, at_. rewrite (nth_lookup_Some _ _ _ _ Ex). apply in_map_iff. exists r'. split; auto. apply nth_lookup_Some. auto. }
  clear Hk. induction (keep_by c (seq 0 width)) as [|i l IH]; cbn; constructor; auto; [apply H; left; auto|apply IH; intros; apply H; right; auto].
Qed.
Lemma same_length {A} (a b : list A) : List.NoDup a -> List.NoDup b -> (forall x, In x a <-> In x b) -> length a = length b.
Proof. intros. apply Permutation_length. apply Coq.Sorting.Permutation.NoDup_Permutation; auto. Qed.
Lemma ucol_distinct width mrows i : rect width mrows -> (i < width)%nat -> length (ucol mrows i) = distinct mrows i.
Proof.
  intros Hm Hi. unfold distinct. rewrite <- (map_length (fun x => [x]) (ucol mrows i)). destruct (ucol_ok mrows i) as (_ & Hs & Hu). unfold rect in Hm. rewrite List.Forall_forall in Hm. apply same_length.
  - apply FinFun.Injective_map_NoDup; [intros a b [= ->]; auto|]. eapply ssorted_nodup; eauto. apply ncmp_good.
  - apply NoDup_nodup.
  - intros l. rewrite nodup_In, !in_map_iff. setoid_rewrite Hu. unfold colvals. split.
    + intros (x & <- & Hx). apply in_map_iff in Hx as (r & <- & Hr). exists r. split; auto. destruct (r !! i) as [y|] eqn:E; [|apply lookup_ge_None in E; rewrite (Hm r Hr) in E; lia]. unfold at_. rewrite (nth_lookup_Some _ _ _ _ E). auto.
    + intros (r & <- & Hr). exists (at_ r i). split; [|apply in_map_iff; eauto]. destruct (r !! i) as [y|] eqn:E; [|apply lookup_ge_None in E; rewrite (Hm r Hr) in E; lia]. unfold at_. rewrite (nth_lookup_Some _ _ _ _ E). auto.
Qed.
Lemma combos_len {A} : forall cols : list (list A), length (combos cols) = fold_right (fun c n => (length c * n)%nat) 1%nat cols.
Proof. induction cols as [|c cols IH]; cbn; auto. rewrite <- IH. clear. induction c as [|x c IH]; cbn; auto. rewrite app_length, map_length, IH. auto. Qed.
Lemma keys_len width mrows c : rect width mrows -> length c = width -> length (keys mrows width c) = combinations_from mrows c 0.
Proof.
  intros Hm Hc. unfold keys, sel. rewrite combos_len. replace (seq 0 width) with (seq 0 (length c)) by (f_equal; lia). enough (G : forall s, (s + length c <= width)%nat -> fold_right (fun c n => (length c * n)%nat) 1%nat (map (ucol mrows) (keep_by c (seq s (length c)))) = combinations_from mrows c s) by (apply G; lia). clear Hc.
  induction c as [|b c IH]; intros s H; cbn; auto. cbn in H. destruct b; cbn; [rewrite (ucol_distinct width) by (auto; lia)|]; rewrite IH by lia; lia.
Qed.
Lemma size_combinations width mrows config : rect width mrows -> (forall c, In c config -> length c = width) -> size mrows width config = combinations mrows config.
Proof. intros Hm. induction config as [|c config IH]; intros H; cbn; auto. rewrite keys_len by (auto; apply H; left; auto). unfold size, combinations in IH. rewrite IH; auto. intros. apply H. right. auto. Qed.

(** ---------- C73 ---------- *)
Section C73.
  Context (width : nat) (mcells : list (list num)) (mw : list R) (cells : list (list num)) (w : list R) (config : list (list bool)) (tol : R) (maxit : nat) (V : valid width mcells mw cells w config).
  (** the weights after the first adjustment of the total *)
  Definition start : list R := map (fun x => x * (Rsum mw / Rsum w)) w.
  Notation run := (c_loglin mcells mw cells config width w tol maxit).
  Lemma run_ok : run = let '(w', k) := prounds mcells mw cells width config tol maxit 1 start in Ok (Some (RO w' k (if (k =? maxit)%nat then Some "c"%char else None))).
  Proof. destruct (valid_facts _ _ _ _ _ _ V) as (? & ? & ? & ? & ? & ? & ?). apply loglin_ok; auto. Qed.
  Lemma run_inv o : run = Ok (Some o) -> prounds mcells mw cells width config tol maxit 1 start = (rweights o, rk o).
  Proof. rewrite run_ok. destruct (prounds _ _ _ _ _ _ _ _ _) as [w' k]. intros [= <-]. auto. Qed.
  Lemma start_len : length start = length cells.
  Proof. destruct (valid_facts _ _ _ _ _ _ V) as (? & ? & ? & ? & ? & ? & ?). unfold start. rewrite map_length. auto. Qed.
  Lemma start_good : nonnegative mw -> nonnegative w -> good cells start.
  Proof.
    intros Hm Hw. split; [|apply start_len]. intros x Hx. apply in_map_iff in Hx as (y & <- & Hy). destruct (valid_facts _ _ _ _ _ _ V) as (? & ? & ? & ? & ? & ? & Hs).
    pose proof (Rsum_nonneg w ltac:(apply nonneg_Forall; auto)). pose proof (Rsum_nonneg mw ltac:(apply nonneg_Forall; auto)). apply Rmult_le_pos; auto. apply Rmult_le_pos; auto. left. apply Rinv_0_lt_compat. lra.
  Qed.
  (** the raking ends, after at most the given number of rounds, with a weight for each cell *)
  Theorem C73_terminates : exists o, run = Ok (Some o) /\ length (rweights o) = length cells /\ (1 <= rk o <= S maxit)%nat.
  Proof.
    rewrite run_ok. pose proof (prounds_k mcells mw cells width config tol maxit 1 start) as Hk.
    pose proof (prounds_inv mcells mw cells width (fun w => length w = length cells) config tol ltac:(intros; apply all_pass_len; auto) maxit 1 start start_len) as Hl.
    destruct (prounds _ _ _ _ _ _ _ _ _) as [w' k]. eexists. split; [reflexivity|]. cbn in *. split; [auto|]. lia.
  Qed.
  (** weights stay nonnegative, zeros stay zeros, and the table is log-linear over the one to start with *)
  Lemma ll_refl l : length l = length cells -> log_linear cells config l l.
  Proof.
    intros Hl. exists (map (fun _ _ => 1) config). split; [apply map_length|]. split; [intros f k Hf; apply in_map_iff in Hf as (? & <- & _); lra|].
    assert (E : forall cell, Rprod (zip_with (fun c f => f (key c cell)) config (map (fun _ _ => 1) config)) = 1) by (intros cell; clear V; unfold Rprod; induction config as [|c l' IH]; cbn; [auto|rewrite IH; lra]).
    clear V. revert l Hl. induction cells as [|r rows IH]; intros [|x l] Hl; try discriminate; cbn [zip_with]; auto. rewrite E, Rmult_1_r. f_equal. apply IH. cbn in Hl. lia.
  Qed.
  Lemma Rprod_app a b : Rprod (a ++ b) = Rprod a * Rprod b.
  Proof. unfold Rprod. induction a as [|x a IH]; cbn; [lra|]. rewrite IH. lra. Qed.
  Lemma ll_scale l l' c k q : In c config -> 0 <= q -> log_linear cells config l l' -> log_linear cells config l (zip_with (fun r x => if key_dec (key c r) k then x * q else x) cells l').
  Proof.
    intros Hc Hq (fs & Hl & Hp & ->). apply in_split in Hc as (pre & post & E). rewrite E in Hl.  rewrite app_length in Hl. cbn in Hl.
    assert (X : exists p f r, fs = p ++ f :: r /\ length p = length pre).
    { exists (take (length pre) fs). destruct (drop (length pre) fs) as [|f r] eqn:Ed; [apply (f_equal length) in Ed; rewrite drop_length in Ed; cbn in Ed; lia|]. exists f, r. split; [rewrite <- Ed, take_drop; auto|]. rewrite take_length. lia. }
    destruct X as (p & f & r & -> & Hpre). exists (p ++ (fun k' => if key_dec k' k then f k' * q else f k') :: r). split; [|split].
    - rewrite E. rewrite !app_length in *. cbn in *. lia.
    - intros f' k' Hf'. apply in_app_iff in Hf' as [Hf'|[<-|Hf']].
      + apply Hp. apply in_app_iff. auto.
      + assert (0 <= f k') by (apply Hp; apply in_app_iff; right; left; auto). destruct (key_dec k' k); auto. apply Rmult_le_pos; auto.
      + apply Hp. apply in_app_iff. right. right. auto.
    - clear V. revert l. induction cells as [|cell rows IH]; intros [|x l]; auto. cbn [zip_with]. rewrite IH. f_equal. rewrite E. rewrite !zip_with_app by auto. rewrite !Rprod_app. cbn [zip_with]. cbn [Rprod fold_right]. fold (Rprod (zip_with (fun c f => f (key c cell)) post r)).
      destruct (key_dec (key c cell) k); [|auto]. ring.
  Qed.
  Lemma ll_pass c first : In c config -> nonnegative mw -> forall ks l s, good cells (fst s) -> 0 <= snd s -> log_linear cells config l (fst s) -> log_linear cells config l (fst (fold_left (gstep mcells mw cells c first) ks s)).
  Proof.
    intros Hc Hmw. induction ks as [|k ks IH]; intros l s Hg Hs Hl; auto. cbn [fold_left]. destruct (gstep_good mcells mw cells Hmw c first s k Hg) as (G1 & _ & D1 & _). apply IH; auto; [lra|]. destruct s as [w0 dev]. cbn [fst snd] in *.
    destruct (gstep_cases mcells mw cells c first w0 dev k) as [[_ ->]|(_ & Hne & ->)]; auto. cbn [fst]. apply ll_scale; auto. destruct Hg as [Hn _]. pose proof (margin_nonneg c k cells w0 Hn). pose proof (target_nonneg mcells mw Hmw c k).
    apply Rmult_le_pos; auto. left. apply Rinv_0_lt_compat. lra.
  Qed.
  Lemma ll_all first cs : (forall c, In c cs -> In c config) -> nonnegative mw -> forall l s, good cells (fst s) -> 0 <= snd s -> log_linear cells config l (fst s) -> log_linear cells config l (fst (all_pass mcells mw cells width cs first s)).
  Proof.
    intros Hc Hmw. induction cs as [|c cs IH]; intros l s Hg Hs Hl; auto. change (all_pass mcells mw cells width (c :: cs) first s) with (all_pass mcells mw cells width cs first (pass mcells mw cells width c first s)).
    destruct (steps_good mcells mw cells Hmw c first (keys mcells width c) s Hg Hs) as (G1 & _ & D1 & _). apply IH; auto; [intros; apply Hc; right; auto|unfold pass; lra|]. apply ll_pass; auto. apply Hc. left. auto.
  Qed.
  Theorem C73_log_linear o : nonnegative mw -> nonnegative w -> run = Ok (Some o) -> log_linear cells config start (rweights o) /\ nonnegative (rweights o) /\ (forall i, w !! i = Some 0 -> rweights o !! i = Some 0).
  Proof.
    intros Hmw Hw Ho. apply run_inv in Ho. pose proof (start_good Hmw Hw) as Hg.
    pose proof (prounds_inv mcells mw cells width (fun l => good cells l /\ log_linear cells config start l /\ zle start l) config tol) as P. specialize (P ltac:(intros l first (G & L & Z); destruct (all_good mcells mw cells width Hmw first config (l, 0) G ltac:(cbn; lra)) as (G1 & Z1 & _); split; [auto|]; split; [apply ll_all; cbn; auto; lra|eapply zle_trans; eauto])).
    specialize (P maxit 1%nat start). rewrite Ho in P. cbn [fst] in P. destruct P as (G & L & Z); [split; [auto|]; split; [apply ll_refl; apply start_len|apply zle_refl]|]. split; [auto|]. split; [apply G|].
    intros i Hi. assert (Hs : start !! i = Some 0). { unfold start. rewrite list_lookup_fmap, Hi. cbn. f_equal. lra. }
    destruct (Forall2_lookup_l _ _ _ _ _ Z Hs) as (y & Hy & E). rewrite Hy, E; auto.
  Qed.
  (** the margins of the last contrast are met exactly, those of every contrast to the tolerance times the number of combinations, if the raking stopped before the limit:
      in each combination of values that has any weight at all *)
  Theorem C73_last_margin o c cell pre : nonnegative mw -> nonnegative w -> config = pre ++ [c] -> (1 <= maxit)%nat -> run = Ok (Some o) -> In cell cells -> known c mcells cell -> margin c cells (rweights o) (key c cell) <> 0 ->
    margin c cells (rweights o) (key c cell) = margin c mcells mw (key c cell).
  Proof.
    intros Hmw Hw Hc Hmax Ho Hcell Hk Hne. apply run_inv in Ho. destruct (prounds_last mcells mw cells width Hmw config tol maxit 1 start) as (w1 & first & G1 & C1 & E & _); auto; [apply start_good; auto|congruence|]. rewrite Ho in E. cbn [fst] in E. rewrite E in *. clear Ho E.
    destruct (valid_facts _ _ _ _ _ _ V) as (Hm & Hf & _). unfold rect in Hf. rewrite List.Forall_forall in Hf. assert (Hkey : In (key c cell) (keys mcells width c)) by (apply known_key; auto).
    revert Hne C1. rewrite Hc. rewrite (all_split mcells mw cells width pre c []). cbn [all_pass fold_left]. intros Hne C1. set (s1 := all_pass mcells mw cells width pre first (w1, 0)) in *.
    destruct (all_good mcells mw cells width Hmw first pre (w1, 0) G1 ltac:(cbn; lra)) as (G2 & Z2 & D2 & _). fold s1 in G2, Z2, D2.
    destruct (steps_margin mcells mw cells c first (key c cell) (keys mcells width c) s1 (keys_nodup _ _ c) Hkey) as [[Hsk E]|(_ & E & _)]; change (fold_left (gstep mcells mw cells c first) (keys mcells width c) s1) with (pass mcells mw cells width c first s1) in *; [|exact E].
    exfalso. apply Hne. rewrite E. destruct Hsk as [[-> Ht]|]; auto. apply (margin_zle c (key c cell) cells w1); [apply G1|auto|]. apply C1; auto. apply in_app_iff. right. left. auto.
  Qed.
  Theorem C73_converged o c cell : nonnegative mw -> nonnegative w -> run = Ok (Some o) -> (rk o <= maxit)%nat -> In c config -> In cell cells -> known c mcells cell -> margin c cells (rweights o) (key c cell) <> 0 ->
    Rabs (margin c cells (rweights o) (key c cell) - margin c mcells mw (key c cell)) <= INR (combinations mcells config) * tol.
  Proof.
    intros Hmw Hw Ho Hmax Hc Hcell Hk Hne. apply run_inv in Ho. pose proof (prounds_k mcells mw cells width config tol maxit 1 start) as Hk1. rewrite Ho in Hk1. cbn [snd] in Hk1.
    destruct (prounds_last mcells mw cells width Hmw config tol maxit 1 start) as (w1 & first & G1 & C1 & E & Ht); auto; [apply start_good; auto|congruence|lia|]. rewrite Ho in E, Ht. cbn [fst snd] in E, Ht. rewrite E in *. specialize (Ht ltac:(lia)).
    destruct (valid_facts _ _ _ _ _ _ V) as (Hm & Hf & _). pose proof Hf as Hf'. unfold rect in Hf. rewrite List.Forall_forall in Hf. assert (Hkey : In (key c cell) (keys mcells width c)) by (apply known_key; auto).
    eapply Rle_trans; [apply (all_margin mcells mw cells width Hmw config first (w1, 0) c (key c cell)); auto; cbn; lra|].
    rewrite (size_combinations width) by (auto; intros; apply V; auto). apply Rmult_le_compat_l; [apply pos_INR|lra].
  Qed.
  (** a table that meets the margins is left as it is, after one round *)
  Definition steady (l : list R) : Prop := forall c k, In c config -> In k (keys mcells width c) -> margin c cells l k = target mcells mw c k \/ margin c cells l k = 0.
  Lemma zip_same (f : list num -> R -> R) : forall rows l, length l = length rows -> (forall r x, f r x = x) -> zip_with f rows l = l.
  Proof. induction rows as [|r rows IH]; intros [|x l] H E; try discriminate; cbn; auto. rewrite E. f_equal. apply IH; auto. Qed.
  Lemma steady_pass c first : In c config -> forall ks l dev, (forall k, In k ks -> In k (keys mcells width c)) -> 0 <= dev -> length l = length cells -> steady l -> fold_left (gstep mcells mw cells c first) ks (l, dev) = (l, dev).
  Proof.
    intros Hc. induction ks as [|k ks IH]; intros l dev Hk Hd Hl Hs; auto. cbn [fold_left]. destruct (gstep_cases mcells mw cells c first l dev k) as [[_ ->]|(_ & Hne & ->)]; [apply IH; auto; intros; apply Hk; right; auto|].
    destruct (Hs c k Hc (Hk k (or_introl eq_refl))) as [E|]; [|contradiction]. rewrite <- E. rewrite zip_same; auto; [|intros r x; destruct (key_dec _ _); auto; field; auto]. unfold Rminus. rewrite Rplus_opp_r, Rabs_R0, Rmax_right by auto. apply IH; auto. intros. apply Hk. right. auto.
  Qed.
  Lemma steady_all first cs : (forall c, In c cs -> In c config) -> forall l dev, 0 <= dev -> length l = length cells -> steady l -> all_pass mcells mw cells width cs first (l, dev) = (l, dev).
  Proof.
    intros Hc. induction cs as [|c cs IH]; intros l dev Hd Hl Hs; auto. change (all_pass mcells mw cells width cs first (pass mcells mw cells width c first (l, dev)) = (l, dev)). unfold pass. rewrite steady_pass; auto; [|apply Hc; left; auto]. apply IH; auto. intros. apply Hc. right. auto.
  Qed.
  Lemma steady_rounds l n k : 0 < tol -> length l = length cells -> steady l -> prounds mcells mw cells width config tol (S n) k l = (l, k).
  Proof. intros Ht Hl Hs. cbn [prounds]. rewrite steady_all by (auto; lra). cbn [fst snd]. destruct (Rlt_dec 0 tol); auto. lra. Qed.
  Theorem C73_fixed_point o : 0 < tol -> (1 <= maxit)%nat -> Rsum mw = Rsum w -> (forall c k, In c config -> margin c cells w k = margin c mcells mw k) -> run = Ok (Some o) -> rweights o = w /\ rk o = 1%nat.
  Proof.
    intros Ht Hmax Hsum Hmar Ho. apply run_inv in Ho. destruct (valid_facts _ _ _ _ _ _ V) as (_ & _ & _ & _ & Hl & _ & Hs).
    assert (E : start = w). { unfold start. rewrite Hsum. transitivity (map (fun x => x) w); [|apply map_id]. apply map_ext. intros x. field. auto. }
    rewrite E in Ho. destruct maxit as [|n]; [lia|]. rewrite steady_rounds in Ho; auto; [injection Ho; auto|]. intros c k Hc _. left. apply Hmar. auto.
  Qed.
  (** with a single contrast two rounds are enough *)
  Theorem C73_one_contrast o c : config = [c] -> 0 < tol -> (2 <= maxit)%nat -> run = Ok (Some o) -> (rk o <= 2)%nat.
  Proof.
    intros Hc Ht Hmax Ho. apply run_inv in Ho. destruct maxit as [|[|n]]; try lia. pose proof start_len as Hl. remember (S n) as n1 eqn:En1. cbn [prounds] in Ho. subst n1. destruct (Rlt_dec _ tol).
    - injection Ho as _ <-. lia.
    - rewrite steady_rounds in Ho; [injection Ho as _ <-; lia|auto|apply all_pass_len; auto|].
      rewrite Hc at 1. intros c' k Hc' Hk. rewrite Hc in Hc'. destruct Hc' as [<-|[]]. change (all_pass mcells mw cells width [c] (1 =? 1)%nat (start, 0)) with (fold_left (gstep mcells mw cells c true) (keys mcells width c) (start, 0)).
      destruct (steps_margin mcells mw cells c true k (keys mcells width c) (start, 0) (keys_nodup _ _ c) Hk) as [[[[? _]|H] E]|(_ & E & _)]; [discriminate| |]; cbv zeta in E; rewrite E; auto.
  Qed.
End C73.

(** the error code.  The manual: error c if the iterations are used up without convergence.  In fact: if the raking converges just in the last round allowed *)
Theorem C73_error width mcells mw cells w config tol maxit o : valid width mcells mw cells w config -> c_loglin mcells mw cells config width w tol maxit = Ok (Some o) -> (rerr o = Some "c"%char <-> rk o = maxit) /\ (rk o = S maxit -> rerr o = None).
Proof.
  intros V Ho. rewrite (run_ok _ _ _ _ _ _ _ _ V) in Ho. destruct (prounds _ _ _ _ _ _ _ _ _) as [w' k]. injection Ho as <-. cbn. destruct (Nat.eqb_spec k maxit) as [E|E]; (split; [split; intros; try discriminate; auto; congruence|intros; try (exfalso; lia); auto]).
Qed.
Lemma steps_dev mrows mw frows c first k : forall ks s, List.NoDup ks -> In k ks -> ~ skip mrows mw frows c first (fst s) k ->
  Rabs (margin c frows (fst s) k - target mrows mw c k) <= snd (fold_left (gstep mrows mw frows c first) ks s).
Proof.
  assert (Mono : forall ks s, snd s <= snd (fold_left (gstep mrows mw frows c first) ks s)).
  { induction ks as [|k' ks IH]; intros [l dev]; cbn [fold_left]; [lra|]. eapply Rle_trans; [|apply IH]. destruct (gstep_cases mrows mw frows c first l dev k') as [[_ ->]|(_ & _ & ->)]; cbn [snd]; [lra|apply Rmax_r]. }
  induction ks as [|k' ks IH]; intros [l dev] Hnd Hin Hs; [destruct Hin|]. inversion Hnd as [|? ? Hk' Hnd']; subst. cbn [fold_left fst] in *. destruct (key_dec k' k) as [->|Hne].
  - destruct (gstep_cases mrows mw frows c first l dev k) as [[? _]|(_ & _ & ->)]; [contradiction|]. eapply Rle_trans; [|apply Mono]. cbn [snd]. apply Rmax_l.
  - destruct Hin as [|Hin]; [congruence|]. assert (E : margin c frows (fst (gstep mrows mw frows c first (l, dev) k')) k = margin c frows l k).
    { destruct (gstep_cases mrows mw frows c first l dev k') as [[_ ->]|(_ & _ & ->)]; auto. cbn [fst]. apply margin_other. auto. }
    rewrite <- E. apply IH; auto. unfold skip in *. rewrite E. auto.
Qed.
Definition two_cells : list (list num) := [[Some 1]; [Some 2]].
Lemma two_valid mw w : length mw = 2%nat -> length w = 2%nat -> Rsum w <> 0 -> valid 1 two_cells mw two_cells w [[true]].
Proof.
  intros H1 H2 H3. repeat split; auto; try (intros c [<-|[<-|[]]]; reflexivity); try (intros c [<-|[]]; cbn; auto; fail).
  - destruct H as [<-|[]]. auto.
  - destruct H as [<-|[]]. cbn. auto.
  - intros i c Hc E. exists c. auto.
Qed.
Lemma key1 : key [true] [Some 1] = [Some 1]. Proof. reflexivity. Qed.
Lemma two_margin a b : margin [true] two_cells [a; b] [Some 1] = a /\ margin [true] two_cells [a; b] [Some 2] = b.
Proof.
  unfold margin, two_cells. cbn [zip_with key keep_by]. rewrite !Rsum_cons, Rsum_nil. destruct (key_dec [Some 1] [Some 1]), (key_dec [Some 2] [Some 1]), (key_dec [Some 2] [Some 2]), (key_dec [Some 1] [Some 2]); try congruence; try (exfalso; match goal with H : [Some _] = [Some _] |- _ => injection H; lra end). split; lra.
Qed.
Lemma two_known : known [true] two_cells [Some 1] /\ known [true] two_cells [Some 2].
Proof. split; intros i x Hi Hx; exists [x]; destruct i; try discriminate; cbn in Hx; injection Hx as <-; cbn; auto. Qed.
(** a table that fits already: the raking is over after one round, and reported as not converged *)
Theorem C73_false_alarm_refuted : exists mw w o, valid 1 two_cells mw two_cells w [[true]] /\ c_loglin two_cells mw two_cells [[true]] 1 w (/ 2) 1 = Ok (Some o) /\ rweights o = w /\ (forall k, margin [true] two_cells (rweights o) k = margin [true] two_cells mw k) /\ rerr o = Some "c"%char.
Proof.
  assert (V : valid 1 two_cells [1; 1] two_cells [1; 1] [[true]]) by (apply two_valid; auto; rewrite !Rsum_cons, Rsum_nil; lra).
  destruct (C73_terminates 1 two_cells [1; 1] two_cells [1; 1] [[true]] (/ 2) 1 V) as (o & Ho & _). destruct (C73_fixed_point 1 two_cells [1; 1] two_cells [1; 1] [[true]] (/ 2) 1 V o ltac:(lra) ltac:(lia) eq_refl) as [E1 E2]; auto.
  exists [1; 1], [1; 1], o. split; [auto|]. split; [auto|]. split; [auto|]. split; [rewrite E1; auto|]. apply (C73_error _ _ _ _ _ _ _ _ _ V Ho). auto.
Qed.
(** the iterations are used up, and nothing is reported *)
Theorem C73_silent_refuted : exists mw w o, valid 1 two_cells mw two_cells w [[true]] /\ c_loglin two_cells mw two_cells [[true]] 1 w (/ 2) 1 = Ok (Some o) /\ rk o = 2%nat /\ rerr o = None.
Proof.
  assert (V : valid 1 two_cells [1; 3] two_cells [1; 1] [[true]]) by (apply two_valid; auto; rewrite !Rsum_cons, Rsum_nil; lra).
  destruct (C73_terminates 1 two_cells [1; 3] two_cells [1; 1] [[true]] (/ 2) 1 V) as (o & Ho & _ & _). exists [1; 3], [1; 1], o. split; [auto|]. split; [auto|].
  assert (K : rk o = 2%nat). { pose proof (run_inv _ _ _ _ _ _ _ _ V o Ho) as E. cbn [prounds] in E.
    assert (S2 : start [1; 3] [1; 1] = [2; 2]). { unfold start. cbn [map]. rewrite !Rsum_cons, !Rsum_nil. replace (1 * ((1 + (3 + 0)) / (1 + (1 + 0)))) with 2 by lra. auto. }
    rewrite S2 in E. change (1 =? 1)%nat with true in E. change (all_pass two_cells [1; 3] two_cells 1 [[true]] true ([2; 2], 0)) with (fold_left (gstep two_cells [1; 3] two_cells [true] true) (keys two_cells 1 [true]) ([2; 2], 0)) in E.
    pose proof (steps_dev two_cells [1; 3] two_cells [true] true [Some 1] (keys two_cells 1 [true]) ([2; 2], 0) (keys_nodup _ _ _)) as D. cbn [fst] in D. unfold skip, target in D. destruct (two_margin 1 3) as [M _]. 
    rewrite (proj1 (two_margin 2 2)), M in D. specialize (D ltac:(rewrite <- key1; apply known_key; [repeat constructor|reflexivity|apply two_known]) ltac:(intros [[? _]|?]; [discriminate|lra])).
    replace (2 - 1) with 1 in D by lra. rewrite Rabs_R1 in D. destruct (Rlt_dec _ (/ 2)); [lra|]. injection E. auto. }
  split; [auto|]. apply (C73_error _ _ _ _ _ _ _ _ _ V Ho). auto.
Qed.
(** a margin that cannot be met, for want of a cell with weight, is not reported *)
Theorem C73_unmet_refuted : exists mw w o, valid 1 two_cells mw two_cells w [[true]] /\ nonnegative mw /\ nonnegative w /\ c_loglin two_cells mw two_cells [[true]] 1 w (/ 2) 1000 = Ok (Some o) /\ rerr o = None /\ margin [true] two_cells (rweights o) [Some 2] = 0 /\ margin [true] two_cells mw [Some 2] = 3.
Proof.
  assert (V : valid 1 two_cells [1; 3] two_cells [1; 0] [[true]]) by (apply two_valid; auto; rewrite !Rsum_cons, Rsum_nil; lra).
  destruct (C73_terminates 1 two_cells [1; 3] two_cells [1; 0] [[true]] (/ 2) 1000 V) as (o & Ho & Hl & _). exists [1; 3], [1; 0], o.
  assert (N1 : nonnegative [1; 3]) by (intros x [<-|[<-|[]]]; lra). assert (N2 : nonnegative [1; 0]) by (intros x [<-|[<-|[]]]; lra).
  split; [auto|]. split; [auto|]. split; [auto|]. split; [auto|]. split; [|split; [|apply two_margin]].
  - pose proof (C73_one_contrast 1 two_cells [1; 3] two_cells [1; 0] [[true]] (/ 2) 1000 V o [true] eq_refl ltac:(lra) ltac:(lia) Ho). destruct (C73_error _ _ _ _ _ _ _ _ _ V Ho) as [H1 _]. rewrite (run_ok _ _ _ _ _ _ _ _ V) in Ho. destruct (prounds _ _ _ _ _ _ _ _ _) as [w' k]. injection Ho as <-. cbn [rk rerr] in *. destruct (Nat.eqb_spec k 1000); [lia|auto].
  - destruct (C73_log_linear _ _ _ _ _ _ _ _ V o N1 N2 Ho) as (_ & _ & Z). specialize (Z 1%nat eq_refl). destruct (rweights o) as [|a [|b [|]]]; try discriminate. cbn in Z. injection Z as ->. apply two_margin.
Qed.
(** a NaN to be raked that the margins do not have: the list of values is read beyond its end.  A contrast without variables: NULL is dereferenced *)
Theorem C73_nan_refuted : forall config w tol maxit, c_loglin [[Some 1]] [1] [[None]] config 1 w tol maxit = UB.
Proof.
  intros. unfold c_loglin, index_generate, index_column. cbn [seq map all_res]. change (table_col [[Some 1]] 0) with (Ok [Some 1]). change (table_col [[None]] 0) with (Ok [@None R]). cbn [rbind]. change (unique_elements ncmp [Some 1]) with (Ok [Some 1]). cbn [rbind map length].
  rewrite add_column_ok; [|repeat constructor|cbn; auto]. reflexivity.
Qed.
Theorem C73_no_variable_refuted : forall mw w tol maxit, (1 <= maxit)%nat -> Rsum w <> 0 -> c_loglin [[Some 1]] mw [[Some 1]] [[false]] 1 w tol maxit = UB.
Proof.
  intros mw w tol maxit Hn Hw. unfold c_loglin. rewrite index_ok; [|repeat constructor|repeat constructor|]. 2:{ intros i r Hi [<-|[]] E. destruct i; [discriminate|lia]. }
  cbn [rbind]. rewrite !fold_Rsum, !Rplus_0_l. unfold cdiv. destruct (Req_EM_T (Rsum w) 0); [contradiction|]. destruct maxit as [|n1]; [lia|]. reflexivity.
Qed.
Print Assumptions C73_terminates.
Print Assumptions C73_log_linear.
Print Assumptions C73_last_margin.
Print Assumptions C73_converged.
Print Assumptions C73_fixed_point.
Print Assumptions C73_one_contrast.
Print Assumptions C73_error.
Print Assumptions C73_false_alarm_refuted.
Print Assumptions C73_silent_refuted.
Print Assumptions C73_unmet_refuted.
Print Assumptions C73_nan_refuted.
Print Assumptions C73_no_variable_refuted.
(** two variables, two contrasts *)
Example C73_nonvacuous : let cells := [[Some 1; Some 1]; [Some 1; Some 2]; [Some 2; Some 1]; [Some 2; None]] in let config := [[true; false]; [false; true]] in
  valid 2 cells [1; 2; 3; 4] cells [1; 1; 0; 1] config /\ nonnegative [1; 2; 3; 4] /\ nonnegative [1; 1; 0; 1] /\ (forall c cell, In c config -> In cell cells -> known c cells cell) /\ margin [true; false] cells [1; 2; 3; 4] [Some 1] = 3.
Proof.
  cbv zeta. split; [|split; [|split; [|split]]].
  - unfold valid. split; [|split; [|split; [|split; [|split; [|split]]]]]; auto.
    + intros c Hc. repeat destruct Hc as [<-|Hc]; auto. destruct Hc.
    + intros c Hc. repeat destruct Hc as [<-|Hc]; auto. destruct Hc.
    + intros c Hc. repeat destruct Hc as [<-|Hc]; cbn; auto. destruct Hc.
    + rewrite !Rsum_cons, Rsum_nil. lra.
    + intros i c Hc E. exists c. auto.
  - intros x H. repeat destruct H as [<-|H]; try lra. destruct H.
  - intros x H. repeat destruct H as [<-|H]; try lra. destruct H.
  - intros c cell Hc Hcell i x Hi Hx. exists cell. auto.
  - unfold margin. cbn [zip_with key keep_by]. rewrite !Rsum_cons, Rsum_nil. destruct (key_dec [Some 1] [Some 1]), (key_dec [Some 2] [Some 1]); try congruence; [injection e0; lra|lra].
Qed.
