(** C22: compression of a PMF data set. *)
From Verif Require Import DataModel DataProofs RmProofs PmfModel PmfProofs.
Local Open Scope list_scope.
Local Open Scope nat_scope.

(** -------- specification -------- *)
(** C's == and NaN test on doubles *)
Record double_eq {E} (eqd : E -> E -> bool) (nan : E -> bool) : Prop := {
  de_sym : forall x y, eqd x y = eqd y x;
  de_trans : forall x y z, eqd x y = true -> eqd y z = true -> eqd x z = true;
  de_nan : forall x y, eqd x y = true -> nan x = false /\ nan y = false }.
(** rows i and j of a page show the same observation (two NaNs count as equal) *)
Definition same_cell {E} (eqd : E -> E -> bool) (nan : E -> bool) (x y : E) : Prop :=
  eqd x y = true \/ (nan x = true /\ nan y = true).
Definition same_row {E} (eqd : E -> E -> bool) (nan : E -> bool) (p : page E) (i j : nat) : Prop :=
  (forall v, vect p = Some v -> exists x y, v !! i = Some x /\ v !! j = Some y /\ same_cell eqd nan x y) /\
  (forall m, mat p = Some m -> exists x y, ga m !! i = Some x /\ ga m !! j = Some y /\ Forall2 (same_cell eqd nan) x y) /\
  (forall t, txt p = Some t -> ga t !! i = ga t !! j).
(** the weight of row i plus those of its later duplicates, and whether row i is the first of its kind *)
Definition merged {E} (add : E -> E -> E) (same : nat -> nat -> bool) (w : list E) (i : nat) : list E :=
  match w !! i with
  | Some x => [List.fold_left add (omap (fun j => if same i j then w !! j else None) (seq (S i) (length w - S i))) x]
  | None => []
  end.
Definition first_of (same : nat -> nat -> bool) (i : nat) : bool := negb (existsb (fun k => same k i) (seq 0 i)).

Section P.
Context {E : Type}.
Variables (eqd : E -> E -> bool) (nan : E -> bool) (one : E) (add : E -> E -> E).
Hypothesis Hde : double_eq eqd nan.
Notation veq := (veq eqd nan).

Lemma veq_spec x y : veq x y = true <-> same_cell eqd nan x y.
Proof. unfold PmfModel.veq, same_cell. rewrite orb_true_iff, andb_true_iff. tauto. Qed.
Lemma veq_sym x y : veq x y = veq y x.
Proof. unfold PmfModel.veq. rewrite (de_sym _ _ Hde x y), (andb_comm (nan x)). auto. Qed.
Lemma veq_trans x y z : veq x y = true -> veq y z = true -> veq x z = true.
Proof.
  rewrite !veq_spec. unfold same_cell. intros [H|[H1 H2]] [K|[K1 K2]]; auto.
  - left. eapply (de_trans _ _ Hde); eauto.
  - destruct (de_nan _ _ Hde _ _ H). congruence.
  - destruct (de_nan _ _ Hde _ _ K). congruence.
Qed.
Lemma all_eq_spec {A} (f : A -> A -> bool) l r : all_eq f l r = true <-> Forall2 (fun x y => f x y = true) l r.
Proof.
  revert r; induction l as [|x l IH]; intros [|y r]; cbn; try (split; [discriminate|intros H; inversion H]).
  - split; auto.
  - rewrite andb_true_iff, IH. split; [intros []; auto|]. intros H. inversion H; subst. auto.
Qed.
Lemma all_eq_sym {A} (f : A -> A -> bool) l r : (forall x y, f x y = f y x) -> all_eq f l r = all_eq f r l.
Proof. intros Hf. revert r; induction l as [|x l IH]; intros [|y r]; cbn; auto. rewrite Hf, IH. auto. Qed.
Lemma all_eq_trans {A} (f : A -> A -> bool) : (forall x y z, f x y = true -> f y z = true -> f x z = true) ->
  forall l r s, all_eq f l r = true -> all_eq f r s = true -> all_eq f l s = true.
Proof.
  intros Hf. induction l as [|x l IH]; intros [|y r] [|z s]; cbn; try discriminate; auto.
  rewrite !andb_true_iff. intros [] []. split; eauto.
Qed.
Lemma all_eqb l r : all_eq String.eqb l r = true <-> l = r.
Proof.
  rewrite all_eq_spec. split.
  - induction 1 as [|x y l r H _ IH]; auto. apply String.eqb_eq in H. congruence.
  - intros <-. induction l; constructor; auto. apply String.eqb_refl.
Qed.

Variable p : page E.
Variable N : nat.
Hypothesis HR : regular p N.
Hypothesis Hwf : wf_page p.

Lemma rows_equal_spec i j : i < N -> j < N ->
  exists b, rows_equal eqd nan p i p j = Ok b /\ (b = true <-> same_row eqd nan p i j).
Proof.
  destruct HR as (Rv & Rw & Rm & Rt & _). destruct Hwf as (Wm & Wt). intros Hi Hj.
  destruct p as [ve ma we tx nm er]. unfold rows_equal, same_row. cbn [vect mat txt] in *.
  set (bv := match ve with Some _ => _ | None => _ end).
  assert (bv = true <-> forall v, ve = Some v -> exists x y, v !! i = Some x /\ v !! j = Some y /\ same_cell eqd nan x y) as Hbv.
  { subst bv. destruct ve as [v|]; [|split; [discriminate|auto]].
    pose proof (Rv _ eq_refl). destruct (lookup_lt_is_Some_2 v i ltac:(lia)) as [x Hx].
    destruct (lookup_lt_is_Some_2 v j ltac:(lia)) as [y Hy]. rewrite Hx, Hy, veq_spec. split.
    - intros Hs w [= <-]. eauto.
    - intros H0. destruct (H0 v eq_refl) as (x' & y' & A & B & C). congruence. }
  clearbody bv.
  set (bm := match ma with Some _ => _ | None => _ end).
  assert (bm = true <-> forall m, ma = Some m -> exists x y, ga m !! i = Some x /\ ga m !! j = Some y /\ Forall2 (same_cell eqd nan) x y) as Hbm.
  { subst bm. destruct ma as [m|]; [|split; [discriminate|auto]].
    destruct (Rm _ eq_refl) as [R1 R2]. destruct (lookup_lt_is_Some_2 (ga m) i ltac:(lia)) as [x Hx].
    destruct (lookup_lt_is_Some_2 (ga m) j ltac:(lia)) as [y Hy]. rewrite Hx, Hy, Nat.eqb_refl. cbn [andb]. rewrite all_eq_spec.
    assert (Forall2 (fun x y => veq x y = true) x y <-> Forall2 (same_cell eqd nan) x y) as ->.
    { split; intros HF; (eapply Forall2_impl; [exact HF|]); intros ? ?; apply veq_spec. }
    split.
    - intros Hs w [= <-]. eauto.
    - intros H0. destruct (H0 m eq_refl) as (x' & y' & A & B & C). congruence. }
  clearbody bm.
  destruct bv; cbn [negb]. 2:{ eexists; split; [reflexivity|]. split; [discriminate|]. intros (H & _). apply Hbv in H. discriminate. }
  destruct bm; cbn [negb]. 2:{ eexists; split; [reflexivity|]. split; [discriminate|]. intros (_ & H & _). apply Hbm in H. discriminate. }
  unfold tsz2; cbn [txt]. destruct tx as [t|].
  - destruct (Wt t eq_refl) as ((W1 & W2) & W3 & W4). destruct (Nat.eqb_spec (gc t) 0); [lia|].
    rewrite Nat.eqb_refl. cbn [negb]. destruct (Rt _ eq_refl) as [R1 R2].
    destruct (lookup_lt_is_Some_2 (ga t) i ltac:(lia)) as [x Hx].
    destruct (lookup_lt_is_Some_2 (ga t) j ltac:(lia)) as [y Hy]. rewrite Hx, Hy. eexists; split; [reflexivity|].
    rewrite all_eqb. split.
    + intros ->. split; [apply Hbv; auto|]. split; [apply Hbm; auto|]. intros t' [= <-]. congruence.
    + intros (_ & _ & H). specialize (H t eq_refl). congruence.
  - cbn. eexists; split; [reflexivity|]. split; auto. intros _. split; [apply Hbv; auto|]. split; [apply Hbm; auto|]. discriminate.
Qed.

Lemma same_cell_sym x y : same_cell eqd nan x y -> same_cell eqd nan y x.
Proof. rewrite <- !veq_spec, veq_sym. auto. Qed.
Lemma same_row_sym i j : same_row eqd nan p i j -> same_row eqd nan p j i.
Proof.
  intros (H1 & H2 & H3). split; [|split].
  - intros v Hv. destruct (H1 v Hv) as (x & y & A & B & C). exists y, x. auto using same_cell_sym.
  - intros v Hv. destruct (H2 v Hv) as (x & y & A & B & C). exists y, x. split; [auto|]. split; [auto|].
    apply Forall2_flip. eapply Forall2_impl; [exact C|]. unfold flip. intros ? ? Hc. apply same_cell_sym. exact Hc.
  - intros t Ht. symmetry. auto.
Qed.
Lemma same_cell_trans x y z : same_cell eqd nan x y -> same_cell eqd nan y z -> same_cell eqd nan x z.
Proof. rewrite <- !veq_spec. apply veq_trans. Qed.
Lemma same_row_trans i j k : same_row eqd nan p i j -> same_row eqd nan p j k -> same_row eqd nan p i k.
Proof.
  intros (H1 & H2 & H3) (K1 & K2 & K3). split; [|split].
  - intros v Hv. destruct (H1 v Hv) as (x & y & A & B & C). destruct (K1 v Hv) as (y' & z & A' & B' & C').
    assert (y' = y) as -> by congruence. exists x, z. eauto using same_cell_trans.
  - intros v Hv. destruct (H2 v Hv) as (x & y & A & B & C). destruct (K2 v Hv) as (y' & z & A' & B' & C').
    assert (y' = y) as -> by congruence. exists x, z. split; [auto|]. split; [auto|].
    eapply Forall2_transitive; [|exact C|exact C']. intros; eauto using same_cell_trans.
  - intros t Ht. rewrite H3, K3; auto.
Qed.

Lemma keep_by_ext {A} fl (a b : list A) : length a = length b ->
  (forall i, fl !! i = Some true -> a !! i = b !! i) -> keep_by fl a = keep_by fl b.
Proof.
  revert a b; induction fl as [|f fl IH]; intros [|x a] [|y b] Hl H; cbn in *; try lia; auto.
  assert (keep_by fl a = keep_by fl b) as Hk by (apply IH; [lia|intros i Hi; apply (H (S i)); auto]).
  destruct f; rewrite Hk; auto. f_equal. specialize (H 0 eq_refl). cbn in H. congruence.
Qed.

Lemma concat_singles {A} (f : nat -> list A) n : (forall i, i < n -> exists x, f i = [x]) ->
  length (List.concat (map f (seq 0 n))) = n /\ forall i, i < n -> List.concat (map f (seq 0 n)) !! i = f i !! 0.
Proof.
  induction n as [|n IH]; intros H; [split; [auto|lia]|].
  destruct IH as [I1 I2]; [intros; apply H; lia|]. rewrite seq_S, map_app, concat_app. cbn. rewrite app_nil_r.
  destruct (H n ltac:(lia)) as [x Hx]. rewrite Hx, app_length, I1. cbn. split; [lia|]. intros i Hi.
  destruct (decide (i < n)).
  - rewrite lookup_app_l by lia. apply I2; auto.
  - assert (i = n) as -> by lia. rewrite lookup_app_r by lia. rewrite I1, Nat.sub_diag, Hx. auto.
Qed.

Variable same : nat -> nat -> bool.
Hypothesis Hsame : forall i j, i < N -> j < N -> same i j = true <-> same_row eqd nan p i j.

(** the page with merged weights, of which the first rows of each kind are kept *)
Definition compressed_wts (w : list E) : list E := List.concat (map (merged add same w) (seq 0 (length w))).

Lemma compress_core w : 2 <= N -> wts p = Some w -> (vect p <> None \/ mat p <> None \/ txt p <> None) ->
  pmf_compress eqd nan one add p = Ok (rows_kept (map (first_of same) (seq 0 N)) (set_wts p (Some (compressed_wts w)))).
Proof.
  intros HN Hw Hne. unfold pmf_compress. rewrite (maxsize_regular p N HR Hne).
  destruct (Nat.eqb_spec N 0); [lia|]. destruct (Nat.eqb_spec N 1); [lia|].
  assert (match wts p with Some _ => p | None => set_wts p (Some (replicate N one)) end = p) as -> by (rewrite Hw; auto).
  rewrite Hw.
  assert (length w = N) as Hlw by (destruct HR as (_ & Rw & _); auto).
  assert (forall i j, i < N -> j < N -> rows_equal eqd nan p i p j = Ok (same i j)) as He.
  { intros i j Hi Hj. destruct (rows_equal_spec i j Hi Hj) as (b & -> & Hb). f_equal.
    rewrite <- Hsame in Hb by auto. destruct b, (same i j); try reflexivity; intuition congruence. }
  destruct (il_spec eqd nan add p N same He) with (w0 := w) (n := N) (i := 0) (w := w) (cut := replicate N false) (nd := true)
    as (w' & cut' & nd' & Hil & (I1 & I2 & I3 & I4)); auto.
  - intros i j Hi Hj. destruct (same i j) eqn:A, (same j i) eqn:B; auto.
    + apply Hsame in A; auto. apply same_row_sym, Hsame in A; auto. congruence.
    + apply Hsame in B; auto. apply same_row_sym, Hsame in B; auto. congruence.
  - intros i j k Hi Hj Hk A B. apply Hsame in A; auto. apply Hsame in B; auto. apply Hsame; auto. eapply same_row_trans; eauto.
  - split; [auto|]. split; [apply replicate_length|]. split.
    + intros j Hj. rewrite lookup_replicate_2 by auto. auto.
    + intros k. destruct (Nat.ltb_spec k 0); [lia|]. auto.
  - discriminate.
  - rewrite Hil. cbn [rbind]. f_equal.
    assert (cut' = map (fun i => negb (first_of same i)) (seq 0 N)) as ->.
    { apply list_eq; intros i. rewrite lookup_map. destruct (decide (i < N)).
      - rewrite I3, lookup_seq_lt by auto. cbn. unfold first_of. rewrite negb_involutive. rewrite Nat.min_r by lia. auto.
      - rewrite (proj2 (lookup_ge_None cut' i)), (proj2 (lookup_ge_None (seq 0 N) i)) by (rewrite ?seq_length; lia). auto. }
    assert (regular (set_wts p (Some w')) N) as HR'.
    { destruct HR as (Rv & Rw & Rm & Rt & Rr). split; [auto|]. split; [|auto]. cbn. intros v [= <-]. auto. }
    rewrite (rm_rows_spec _ _ _ N (map (first_of same) (seq 0 N))); [|exact HR'|exact Hne|left; discriminate| |].
    + destruct (concat_singles (merged add same w) N) as [C1 C2].
      { intros i Hi. unfold merged. destruct (lookup_lt_is_Some_2 w i ltac:(lia)) as [x ->]. eauto. }
      assert (keep_by (map (first_of same) (seq 0 N)) w' = keep_by (map (first_of same) (seq 0 N)) (compressed_wts w)) as Hk.
      { unfold compressed_wts. rewrite Hlw. apply keep_by_ext; [lia|]. intros i Hi. rewrite lookup_map in Hi.
        destruct (decide (i < N)); [|rewrite (proj2 (lookup_ge_None (seq 0 N) i)) in Hi by (rewrite seq_length; lia); discriminate].
        rewrite lookup_seq_lt in Hi by auto. cbn in Hi. injection Hi as Hi.
        rewrite C2 by auto. rewrite I4. unfold dup. unfold first_of in Hi. rewrite Hi. destruct (Nat.ltb_spec i N); [|lia].
        cbn [andb]. unfold merged, later. rewrite Hlw. destruct (w !! i); auto. }
      unfold rows_kept, set_wts. cbn. rewrite Hk. auto.
    + rewrite map_length, seq_length. auto.
    + intros i Hi. rewrite lookup_map, lookup_seq_lt by auto. cbn. unfold drop_dec. rewrite lookup_map, lookup_seq_lt by auto. cbn.
      rewrite orb_false_r, negb_involutive. auto.
Qed.

(** conservation of the total weight *)
Variable zero : E.
Hypothesis add0l : forall x, add zero x = x.
Hypothesis addA : forall x y z, add x (add y z) = add (add x y) z.
Hypothesis addC : forall x y, add x y = add y x.
Definition big (f : nat -> E) (l : list nat) : E := List.fold_right (fun i a => add (f i) a) zero l.
Lemma add0r x : add x zero = x.
Proof. rewrite addC. auto. Qed.
Lemma big_nil f : big f [] = zero. Proof. reflexivity. Qed.
Lemma big_cons f i l : big f (i :: l) = add (f i) (big f l). Proof. reflexivity. Qed.
Lemma big_add f h l : big (fun i => add (f i) (h i)) l = add (big f l) (big h l).
Proof.
  induction l as [|i l IH]; [rewrite !big_nil, add0l; auto|]. rewrite !big_cons, IH.
  rewrite <- !addA. f_equal. rewrite !addA. f_equal. apply addC.
Qed.
Lemma big_zero l : big (fun _ => zero) l = zero.
Proof. induction l as [|i l IH]; [auto|]. rewrite big_cons, IH. auto. Qed.
Lemma big_ext f h l : (forall i, In i l -> f i = h i) -> big f l = big h l.
Proof. induction l as [|i l IH]; intros H; [auto|]. rewrite !big_cons, H, IH; auto; [intros; apply H; right; auto|left; auto]. Qed.
Lemma big_swap f l1 l2 : big (fun i => big (fun j => f i j) l2) l1 = big (fun j => big (fun i => f i j) l1) l2.
Proof.
  induction l1 as [|i l1 IH].
  - rewrite big_nil. symmetry. apply big_zero.
  - rewrite big_cons, IH, <- big_add. apply big_ext. intros; rewrite big_cons; auto.
Qed.
Lemma big_unique f l x : NoDup l -> In x l -> (forall i, In i l -> i <> x -> f i = zero) -> big f l = f x.
Proof.
  induction 1 as [|i l Hn Hnd IH]; intros Hin H; [destruct Hin|]. rewrite big_cons. destruct Hin as [->|Hin].
  - rewrite (big_ext f (fun _ => zero)), big_zero, add0r; auto. intros j Hj. apply H; [right; auto|].
    intros ->. apply Hn, elem_of_list_In; auto.
  - rewrite H; [|left; auto|]. 
    + rewrite add0l. apply IH; auto. intros; apply H; auto. right; auto.
    + intros ->. apply Hn, elem_of_list_In; auto.
Qed.
Lemma fold_left_big (l : list E) : forall x, List.fold_left add l x = add x (List.fold_right add zero l).
Proof. induction l as [|y l IH]; intros x; cbn; [rewrite add0r; auto|]. rewrite IH, addA. auto. Qed.

Definition W (w : list E) (i : nat) : E := match w !! i with Some x => x | None => zero end.
Lemma fold_right_W (w : list E) : List.fold_right add zero w = big (W w) (seq 0 (length w)).
Proof.
  assert (forall (w : list E) k (f : nat -> E), (forall i, f (k + i) = W w i) -> List.fold_right add zero w = big f (seq k (length w))) as H.
  { clear. induction w as [|x w IH]; intros k f Hf; cbn; auto. f_equal.
    - specialize (Hf 0). rewrite Nat.add_0_r in Hf. rewrite Hf. auto.
    - apply IH. intros i. specialize (Hf (S i)). rewrite Nat.add_succ_r in Hf. cbn. rewrite Hf. auto. }
  apply H. auto.
Qed.
Lemma fold_right_keep fl (l : list E) : length fl = length l ->
  List.fold_right add zero (keep_by fl l) = big (fun i => if match fl !! i with Some b => b | None => false end then W l i else zero) (seq 0 (length l)).
Proof.
  intros Hl.
  assert (forall l fl k (f : nat -> E), length fl = length l ->
     (forall i, f (k + i) = if match fl !! i with Some b => b | None => false end then W l i else zero) ->
     List.fold_right add zero (keep_by fl l) = big f (seq k (length l))) as H.
  { clear -add0l. induction l as [|x l IH]; intros [|b fl] k f Hl Hf; cbn in *; try lia; auto.
    pose proof (Hf 0) as H0. rewrite Nat.add_0_r in H0. cbn in H0.
    assert (List.fold_right add zero (keep_by fl l) = big f (seq (S k) (length l))) as Hr.
    { apply IH; [lia|]. intros i. specialize (Hf (S i)). rewrite Nat.add_succ_r in Hf. cbn. rewrite Hf. auto. }
    destruct b; cbn; rewrite Hr, H0; auto. }
  apply H; auto.
Qed.
Lemma fold_right_omap (P : nat -> bool) (w : list E) l :
  List.fold_right add zero (omap (fun j => if P j then w !! j else None) l) = big (fun j => if P j then W w j else zero) l.
Proof.
  induction l as [|j l IH]; cbn; auto. unfold W at 1. destruct (P j); [|rewrite add0l; auto].
  destruct (w !! j); cbn; [rewrite IH|rewrite add0l]; auto.
Qed.

Lemma first_exists j : j < N -> exists i, i <= j /\ first_of same i = true /\ (i = j \/ same i j = true).
Proof.
  induction j as [j IH] using (well_founded_induction Wf_nat.lt_wf). intros Hj.
  destruct (first_of same j) eqn:Ef; [exists j; auto|].
  unfold first_of in Ef. apply negb_false_iff, existsb_true in Ef as (k & Hk & Hs). cbn beta in Hs.
  destruct (IH k Hk ltac:(lia)) as (i & Hi & Hfi & Hik). exists i. split; [lia|]. split; [auto|]. right.
  destruct Hik as [->|Hik]; auto. apply Hsame in Hik; [|lia|lia]. apply Hsame in Hs; [|lia|lia].
  apply Hsame; [lia|lia|]. eapply same_row_trans; eauto.
Qed.

Lemma total_kept w : length w = N ->
  List.fold_left add (keep_by (map (first_of same) (seq 0 N)) (compressed_wts w)) zero = List.fold_left add w zero.
Proof.
  intros Hw. rewrite !fold_left_big, !add0l.
  destruct (concat_singles (merged add same w) N) as [C1 C2].
  { intros i Hi. unfold merged. destruct (lookup_lt_is_Some_2 w i ltac:(lia)) as [x ->]. eauto. }
  rewrite fold_right_keep by (unfold compressed_wts; rewrite Hw, C1, map_length, seq_length; auto).
  rewrite fold_right_W. unfold compressed_wts. rewrite Hw, C1.
  set (rel := fun i j => first_of same i && (i <=? j) && ((i =? j) || same i j)).
  transitivity (big (fun i => big (fun j => if rel i j then W w j else zero) (seq 0 N)) (seq 0 N)).
  - apply big_ext. intros i Hi. apply in_seq in Hi. rewrite lookup_map, lookup_seq_lt by lia. cbn [option_map Nat.add].
    unfold rel. destruct (first_of same i); cbn [andb]; [|rewrite big_zero; auto].
    unfold W at 1. rewrite C2 by lia. unfold merged. destruct (lookup_lt_is_Some_2 w i ltac:(lia)) as [x Hx]. rewrite Hx. cbn.
    rewrite fold_left_big, fold_right_omap, Hw.
    replace N with (i + S (N - S i)) at 2 by lia. rewrite seq_app. unfold big at 2. rewrite foldr_app.
    cbn [seq List.fold_right]. destruct (Nat.leb_spec (0 + i) (0 + i)); [|lia].
    destruct (Nat.leb_spec i (0 + i)); [|lia]. destruct (Nat.eqb_spec i (0 + i)); [|lia]. cbn [orb andb].
    cbn [Nat.add]. assert (W w i = x) as -> by (unfold W; rewrite Hx; auto).
    assert (forall a, foldr (λ j a, add (if (i <=? j) && ((i =? j) || same i j) then W w j else zero) a) a (seq 0 i) = a) as Hfr.
    { intros a. assert (Forall (fun j => j < i) (seq 0 i)) as HF by (apply List.Forall_forall; intros j Hj; apply in_seq in Hj; lia).
      induction HF as [|j l Hj _ IHl]; cbn; auto. rewrite IHl. destruct (Nat.leb_spec i j); [lia|]. cbn. auto. }
    rewrite Hfr. f_equal. fold (big (fun j => if (i <=? j) && ((i =? j) || same i j) then W w j else zero) (seq (S i) (N - S i))). apply big_ext. intros j Hj. apply in_seq in Hj.
    destruct (Nat.leb_spec i j); [|lia]. destruct (Nat.eqb_spec i j); [lia|]. auto.
  - rewrite big_swap. apply big_ext. intros j Hj. apply in_seq in Hj.
    destruct (first_exists j ltac:(lia)) as (i & Hi & Hfi & Hij).
    rewrite (big_unique _ _ i).
    + unfold rel. rewrite Hfi. destruct (Nat.leb_spec i j); [|lia].
      destruct Hij as [->|Hij]; [rewrite Nat.eqb_refl|rewrite Hij, orb_true_r]; auto.
    + apply NoDup_ListNoDup, seq_NoDup.
    + apply in_seq. lia.
    + intros k Hk Hki. apply in_seq in Hk. unfold rel. destruct (first_of same k) eqn:Efk; [|auto]. cbn.
      destruct (Nat.leb_spec k j) as [Hkj|]; [|auto]. cbn. destruct (Nat.eqb_spec k j) as [->|Hne]; cbn.
      * destruct Hij as [->|Hij]; [congruence|]. exfalso. unfold first_of in Efk. apply negb_true_iff in Efk.
        assert (existsb (fun k => same k j) (seq 0 j) = true); [|congruence]. apply existsb_true. exists i. split; [|auto].
        assert (i <> j) by auto. lia.
      * destruct (same k j) eqn:Esk; [|auto]. exfalso.
        assert (same_row eqd nan p k j) as S1 by (apply Hsame; auto; lia).
        assert (i = j \/ same_row eqd nan p i j) as [->|S2] by (destruct Hij as [|Hij]; [auto|right; apply Hsame; auto; lia]).
        -- unfold first_of in Hfi. apply negb_true_iff in Hfi.
           assert (existsb (fun k => same k j) (seq 0 j) = true); [|congruence]. apply existsb_true. exists k. split; [lia|auto].
        -- destruct (decide (k < i)).
           ++ unfold first_of in Hfi. apply negb_true_iff in Hfi.
              assert (existsb (fun k => same k i) (seq 0 i) = true); [|congruence]. apply existsb_true. exists k. split; [lia|].
              apply Hsame; [lia|lia|]. eapply same_row_trans; [exact S1|apply same_row_sym; exact S2].
           ++ unfold first_of in Efk. apply negb_true_iff in Efk.
              assert (existsb (fun i => same i k) (seq 0 k) = true); [|congruence]. apply existsb_true. exists i. split; [lia|].
              apply Hsame; [lia|lia|]. eapply same_row_trans; [exact S2|apply same_row_sym; exact S1].
Qed.
End P.

(** -------- theorems -------- *)
Lemma C22_compress_aux {E} eqd nan (one : E) add p N same : double_eq eqd nan -> regular p N -> wf_page p -> 2 <= N ->
  (vect p <> None \/ mat p <> None \/ txt p <> None) ->
  (forall i j, i < N -> j < N -> same i j = true <-> same_row eqd nan p i j) ->
  let w := match wts p with Some w => w | None => replicate N one end in
  pmf_compress eqd nan one add p = Ok (rows_kept (map (first_of same) (seq 0 N)) (set_wts p (Some (compressed_wts add same w)))).
Proof.
  intros Hde HR Hwf HN Hne Hs. cbn zeta. destruct (wts p) as [w|] eqn:Ew.
  - eapply compress_core; eauto.
  - set (p' := set_wts p (Some (replicate N one))).
    assert (regular p' N) as HR'.
    { destruct HR as (Rv & Rw & Rm & Rt & Rr). split; [auto|]. split; [|auto]. cbn. intros v [= <-]. apply replicate_length. }
    assert (pmf_compress eqd nan one add p = pmf_compress eqd nan one add p') as ->.
    { unfold pmf_compress. rewrite Ew. change (maxsize p') with (maxsize p). rewrite (maxsize_regular p N HR Hne). destruct (Nat.eqb_spec N 0); [lia|]. reflexivity. }
    rewrite (compress_core eqd nan one add Hde p' N HR' Hwf same Hs (replicate N one)); auto.
Qed.
(** apop_data_pmf_compress keeps exactly the first row of each kind, in order, with all its parts and names,
    and gives it the sum of the weights of the rows like it (rows without weights count one each). *)
Theorem C22_compress_keeps_first_rows : forall E eqd nan (one : E) add p N same, double_eq eqd nan -> regular p N -> wf_page p -> 2 <= N ->
  (vect p <> None \/ mat p <> None \/ txt p <> None) ->
  (forall i j, i < N -> j < N -> same i j = true <-> same_row eqd nan p i j) ->
  let w := match wts p with Some w => w | None => replicate N one end in
  pmf_compress eqd nan one add p = Ok (rows_kept (map (first_of same) (seq 0 N)) (set_wts p (Some (compressed_wts add same w)))).
Proof. exact @C22_compress_aux. Qed.
Print Assumptions C22_compress_keeps_first_rows.

Lemma C22_total_aux {E} eqd nan (one zero : E) add p N : double_eq eqd nan -> regular p N -> wf_page p -> 2 <= N ->
  (vect p <> None \/ mat p <> None \/ txt p <> None) ->
  (forall x, add zero x = x) -> (forall x y z, add x (add y z) = add (add x y) z) -> (forall x y, add x y = add y x) ->
  exists q w', pmf_compress eqd nan one add p = Ok q /\ wts q = Some w' /\
    List.fold_left add w' zero = List.fold_left add (match wts p with Some w => w | None => replicate N one end) zero.
Proof.
  intros Hde HR Hwf HN Hne H1 H2 H3.
  set (same := fun i j => match rows_equal eqd nan p i p j with Ok b => b | _ => false end).
  assert (forall i j, i < N -> j < N -> same i j = true <-> same_row eqd nan p i j) as Hs.
  { intros i j Hi Hj. unfold same. destruct (rows_equal_spec eqd nan one add p N HR Hwf i j Hi Hj) as (b & -> & Hb). exact Hb. }
  pose proof (C22_compress_aux eqd nan one add p N same Hde HR Hwf HN Hne Hs) as Hc. cbn zeta in Hc.
  set (w := match wts p with Some w => w | None => replicate N one end) in *.
  assert (length w = N) as Hw.
  { unfold w. destruct HR as (_ & Rw & _). destruct (wts p); [auto|apply replicate_length]. }
  eexists _, _. split; [exact Hc|]. unfold rows_kept.
  assert (cnt (map (first_of same) (seq 0 N)) =? 0 = false) as ->.
  { apply Nat.eqb_neq. destruct N as [|N']; [lia|]. unfold cnt. cbn. lia. }
  cbn. split; [reflexivity|]. eapply total_kept; eauto.
Qed.
(** The total weight is what it was (for an exact, commutative addition). *)
Theorem C22_total_weight_conserved : forall E eqd nan (one zero : E) add p N, double_eq eqd nan -> regular p N -> wf_page p -> 2 <= N ->
  (vect p <> None \/ mat p <> None \/ txt p <> None) ->
  (forall x, add zero x = x) -> (forall x y z, add x (add y z) = add (add x y) z) -> (forall x y, add x y = add y x) ->
  exists q w', pmf_compress eqd nan one add p = Ok q /\ wts q = Some w' /\
    List.fold_left add w' zero = List.fold_left add (match wts p with Some w => w | None => replicate N one end) zero.
Proof. exact @C22_total_aux. Qed.
Print Assumptions C22_total_weight_conserved.

(** A data set of one row only gets its weight. *)
Lemma C22_one_row_aux {E} eqd nan (one : E) add p : maxsize p = 1 ->
  pmf_compress eqd nan one add p = Ok (match wts p with Some _ => p | None => set_wts p (Some [one]) end).
Proof. intros H. unfold pmf_compress. rewrite H. cbn. destruct (wts p); auto. Qed.
Theorem C22_one_row : forall E eqd nan (one : E) add p, maxsize p = 1 ->
  pmf_compress eqd nan one add p = Ok (match wts p with Some _ => p | None => set_wts p (Some [one]) end).
Proof. exact @C22_one_row_aux. Qed.
Print Assumptions C22_one_row.

(** the table of the documentation, model/apop_pmf.c:294-330, with numbers as naturals *)
Definition doc_table : page nat :=
  Pg (Some [12; 1; 2; 2; 1; 1; 2; 2]) None None
     (Some (Gr 8 1 [["Dozen"]; ["Single"]; ["Pair"]; ["Pair"]; ["Single"]; ["Single"]; ["Pair"]; ["Pair"]]%string)) name_alloc None.
Example C22_nonvacuous : double_eq Nat.eqb (fun _ => false) /\ regular doc_table 8 /\ wf_page doc_table /\
  pmf_compress Nat.eqb (fun _ => false) 1 Nat.add doc_table =
    Ok (Pg (Some [12; 1; 2]) None (Some [1; 3; 4]) (Some (Gr 3 1 [["Dozen"]; ["Single"]; ["Pair"]]%string)) name_alloc None).
Proof.
  split; [|split; [|split]].
  - split; [apply Nat.eqb_sym| |].
    + intros x y z H1%Nat.eqb_eq H2%Nat.eqb_eq. apply Nat.eqb_eq. congruence.
    + auto.
  - split; [intros v [= <-]; auto|]. split; [discriminate|]. split; [discriminate|]. split; [intros t [= <-]; auto|]. left; reflexivity.
  - split; [discriminate|]. intros t [= <-]. split; [split; cbn; repeat constructor|cbn; lia].
  - vm_compute. reflexivity.
Qed.

(** Text shorter than the numeric parts: rows past the text are compared outside the text. *)
Theorem C22_ragged_text_refuted : exists p : page nat, wf_page p /\ pmf_compress Nat.eqb (fun _ => false) 1 Nat.add p = UB.
Proof.
  exists (Pg (Some [7; 7]) None None (Some (Gr 1 1 [["a"%string]])) name_alloc None). split; [|reflexivity].
  split; [discriminate|]. intros t [= <-]. split; [split; cbn; repeat constructor|cbn; lia].
Qed.
Print Assumptions C22_ragged_text_refuted.
