(** Proofs about RakeModel: the index finds the rows of each margin cell; the raking as a function of the weights. *)
From Coq Require Import Reals Lra Sorting.
From Verif Require Import DataModel MissingProps StatsModel StatsSpec StatsProofs FactModel FactProofs RakeModel RakeSpec.
Local Open Scope list_scope.
Local Open Scope nat_scope.

Lemma num_dec (a b : num) : {a = b} + {a <> b}.
Proof. decide equality. apply Req_EM_T. Qed.
Definition eqn (a b : num) : bool := is_eq ncmp a b.
Lemma eqn_true a b : eqn a b = true <-> a = b.
Proof. unfold eqn, is_eq. rewrite <- (c_eq ncmp ncmp_good a b). destruct (ncmp a b); split; congruence. Qed.
Lemma eqn_refl a : eqn a a = true. Proof. apply eqn_true. auto. Qed.
Lemma eqn_false a b : eqn a b = false <-> a <> b.
Proof. rewrite <- eqn_true. destruct (eqn a b); split; congruence. Qed.

(** ---------- the index ---------- *)
Lemma find_val_found x : forall l i, ssorted ncmp (map mval l) -> In x (map mval l) -> exists k, find_val x l i = Ok (Some (i + k)) /\ map mval l !! k = Some x.
Proof.
  induction l as [|n l IH]; intros i Hs Hin; [destruct Hin|]. cbn [map] in *. inversion Hs as [|? ? Hs' Hf]; subst. cbn [find_val].
  destruct (eqn (mval n) x) eqn:E.
  - apply eqn_true in E. exists 0. rewrite Nat.add_0_r. split; [|cbn; congruence]. rewrite E. destruct x as [x|]; cbn; auto.
    destruct (Rle_dec x x); [|lra]. cbn. destruct (Req_EM_T x x); [|lra]. auto.
  - apply eqn_false in E. destruct Hin as [|Hin]; [congruence|]. rewrite List.Forall_forall in Hf. pose proof (Hf x Hin) as Hlt.
    destruct (IH (S i) Hs' Hin) as (k & E1 & E2). exists (S k). rewrite <- Nat.add_succ_comm. split; auto.
    destruct (mval n) as [a|]; [|destruct x; discriminate]. destruct x as [b|]; cbn in Hlt |- *; auto.
    destruct (Rlt_dec a b); [|destruct (Rlt_dec b a); discriminate]. destruct (Rle_dec a b); [|lra]. cbn. destruct (Req_EM_T a b); [lra|]. auto.
Qed.
Lemma find_val_none x : x <> None -> forall l i, ~ In x (map mval l) -> find_val x l i = Ok None.
Proof.
  intros Hx. destruct x as [b|]; [|congruence]. clear Hx. induction l as [|n l IH]; intros i Hn; [auto|]. cbn [find_val]. cbn in Hn.
  destruct (mval n) as [a|]; cbn; auto. destruct (Rle_dec a b); cbn; auto. destruct (Req_EM_T a b) as [->|]; [tauto|]. cbn. apply IH. tauto.
Qed.
Lemma alter_map {A} (f : A -> A) (p : A -> bool) (h : A -> num) x : forall (l : list A) k, List.NoDup (map h l) -> map h l !! k = Some x -> (forall a, p a = eqn (h a) x) ->
  alter f k l = map (fun a => if p a then f a else a) l.
Proof.
  induction l as [|a l IH]; intros k Hn Hk Hp; [destruct k; discriminate|]. cbn in Hn. inversion Hn as [|? ? Ha Hn']; subst. destruct k as [|k]; cbn in Hk |- *.
  - injection Hk as <-. rewrite Hp, eqn_refl. f_equal. symmetry. rewrite <- (map_id l) at 2. apply map_ext_in. intros b Hb. rewrite Hp. replace (eqn (h b) (h a)) with false; auto. symmetry. apply eqn_false. intros E. apply Ha. rewrite <- E. apply in_map. auto.
  - f_equal; [|apply IH; auto]. rewrite Hp. replace (eqn (h a) x) with false; auto. symmetry. apply eqn_false. intros E. apply Ha. rewrite E. apply elem_of_list_In. eapply elem_of_list_lookup_2; eauto.
Qed.
Definition mark (is_margin : bool) (j : nat) (x : num) (n : mnode) : mnode :=
  if eqn (mval n) x then (if is_margin then Mn (mval n) (<[j := true]> (mptrs n)) (fptrs n) else Mn (mval n) (mptrs n) (<[j := true]> (fptrs n))) else n.
Lemma mark_val b j x n : mval (mark b j x n) = mval n.
Proof. unfold mark. destruct (eqn _ _), b; auto. Qed.
Lemma mark_vals b j x l : map mval (map (mark b j x) l) = map mval l.
Proof. rewrite map_map. apply map_ext. intros. apply mark_val. Qed.
Lemma add_node_found l j x b : ssorted ncmp (map mval l) -> In x (map mval l) -> add_node l j x b = Ok (map (mark b j x) l, true).
Proof.
  intros Hs Hin. unfold add_node. destruct (find_val_found x l 0 Hs Hin) as (k & -> & Hk). cbn. f_equal. f_equal. apply (alter_map _ (fun n => eqn (mval n) x) mval x); auto. eapply ssorted_nodup; eauto. apply ncmp_good.
Qed.
Lemma add_node_none l j x b : ~ In x (map mval l) -> x <> None -> add_node l j x b = Ok (map (mark b j x) l, false).
Proof.
  intros Hn Hx. unfold add_node. rewrite find_val_none; auto. cbn. f_equal. f_equal. rewrite <- (map_id l) at 1. apply map_ext_in. intros n Hin. unfold mark. replace (eqn (mval n) x) with false; auto. symmetry. apply eqn_false. intros E. apply Hn. rewrite <- E. apply in_map. auto.
Qed.
Fixpoint set_flags (j : nat) (fl l : list bool) : list bool := match fl with [] => l | b :: r => set_flags (S j) r (if b then <[j := true]> l else l) end.
Lemma set_flags_fresh fl : forall pre, set_flags (length pre) fl (pre ++ replicate (length fl) false) = pre ++ fl.
Proof.
  induction fl as [|b fl IH]; intros pre; cbn [set_flags length replicate]; auto.
  replace (if b then <[length pre := true]> (pre ++ false :: replicate (length fl) false) else pre ++ false :: replicate (length fl) false) with ((pre ++ [b]) ++ replicate (length fl) false).
  - replace (S (length pre)) with (length (pre ++ [b])) by (rewrite app_length; cbn; lia). rewrite IH, <- app_assoc. auto.
  - rewrite <- app_assoc. cbn. destruct b; auto. replace (length pre) with (length pre + 0) by lia. rewrite insert_app_r. auto.
Qed.
Definition marks (is_margin : bool) (j : nat) (vals : list num) (n : mnode) : mnode :=
  if is_margin then Mn (mval n) (set_flags j (map (eqn (mval n)) vals) (mptrs n)) (fptrs n) else Mn (mval n) (mptrs n) (set_flags j (map (eqn (mval n)) vals) (fptrs n)).
Lemma add_column_ok b : forall vals l j, ssorted ncmp (map mval l) -> (forall x, In x vals -> In x (map mval l) \/ (b = false /\ x <> None)) -> add_column l vals j b = Ok (map (marks b j vals) l).
Proof.
  induction vals as [|x vals IH]; intros l j Hs Hv; cbn [add_column].
  - f_equal. rewrite <- (map_id l) at 1. apply map_ext. intros [? ? ?]. unfold marks. destruct b; auto.
  - assert (E : exists f, add_node l j x b = Ok (map (mark b j x) l, f) /\ (b && negb f = false)).
    { destruct (in_dec num_dec x (map mval l)) as [Hin|Hin].
      - exists true. rewrite add_node_found; auto. split; auto. destruct b; auto.
      - destruct (Hv x (or_introl eq_refl)) as [|[-> Hx]]; [contradiction|]. exists false. rewrite add_node_none; auto. }
    destruct E as (f & -> & Hf). cbn [rbind]. rewrite Hf. rewrite IH.
    + f_equal. rewrite map_map. apply map_ext. intros n. unfold marks. rewrite mark_val. unfold mark. cbn [map set_flags]. destruct (eqn (mval n) x), b; auto.
    + rewrite mark_vals. auto.
    + intros y Hy. rewrite mark_vals. apply Hv. right. auto.
Qed.

Section index.
  Context (mrows frows : list (list num)) (width : nat).
  Definition rect (rows : list (list num)) : Prop := List.Forall (fun r => length r = width) rows.
  Definition at_ (r : list num) (i : nat) : num := nth i r None.
  Definition colvals (rows : list (list num)) (i : nat) : list num := map (fun r => at_ r i) rows.
  Lemma table_col_ok rows i : rect rows -> i < width -> table_col rows i = Ok (colvals rows i).
  Proof.
    intros Hr Hi. unfold table_col. apply all_res_Ok. intros r Hin. unfold rect in Hr. rewrite List.Forall_forall in Hr. specialize (Hr r Hin).
    destruct (r !! i) as [x|] eqn:E; [|apply lookup_ge_None in E; lia]. unfold at_. rewrite (nth_lookup_Some _ _ _ x); auto.
  Qed.
  (** the distinct values of a column *)
  Definition ucol (i : nat) : list num := match unique_elements ncmp (colvals mrows i) with Ok u => u | _ => [] end.
  Lemma ucol_ok i : unique_elements ncmp (colvals mrows i) = Ok (ucol i) /\ ssorted ncmp (ucol i) /\ (forall x, In x (ucol i) <-> In x (colvals mrows i)).
  Proof. unfold ucol. destruct (unique_ok ncmp ncmp_good (colvals mrows i)) as (u & -> & H1 & H2). auto. Qed.
  Definition node (i : nat) (v : num) : mnode := Mn v (map (fun r => eqn v (at_ r i)) mrows) (map (fun r => eqn v (at_ r i)) frows).
  Definition nan_known : Prop := forall i r, i < width -> In r frows -> at_ r i = None -> exists r', In r' mrows /\ at_ r' i = None.
  Lemma index_column_ok i : rect mrows -> rect frows -> nan_known -> i < width -> index_column mrows frows i = Ok (map (node i) (ucol i)).
  Proof.
    intros Hm Hf Hn Hi. unfold index_column. rewrite !table_col_ok by auto. cbn [rbind]. destruct (ucol_ok i) as (-> & Hs & Hu). cbn [rbind].
    assert (Ev : forall a b : list bool, map mval (map (fun v => Mn v a b) (ucol i)) = ucol i) by (intros; rewrite map_map; apply map_id).
    rewrite add_column_ok; [|rewrite Ev; auto|intros x Hx; rewrite Ev; left; apply Hu; auto]. cbn [rbind]. rewrite map_map.
    rewrite add_column_ok.
    - f_equal. rewrite map_map. apply map_ext. intros v. unfold marks, node. cbn [mval mptrs fptrs].
      pose proof (set_flags_fresh (map (eqn v) (colvals mrows i)) []) as E1. pose proof (set_flags_fresh (map (eqn v) (colvals frows i)) []) as E2. rewrite map_length in E1, E2. cbn [app length] in E1, E2. rewrite E1, E2. unfold colvals. rewrite !map_map. auto.
    - rewrite map_map. cbn. rewrite map_id. auto.
    - intros x Hx. rewrite map_map. cbn. rewrite map_id. destruct x as [x|]; [right; split; auto; discriminate|]. left. apply Hu. unfold colvals in *. apply in_map_iff in Hx as (r & E & Hr). apply in_map_iff. destruct (Hn i r Hi Hr E) as (r' & ? & ?). eauto.
  Qed.
  Lemma index_ok : rect mrows -> rect frows -> nan_known -> index_generate width mrows frows = Ok (map (fun i => map (node i) (ucol i)) (seq 0 width)).
  Proof. intros. unfold index_generate. apply all_res_Ok. intros i Hi. apply in_seq in Hi. apply index_column_ok; auto. lia. Qed.

  (** ---------- the combinations ---------- *)
  Definition foldm {S X} (g : S -> X -> res S) (l : list X) (a : res S) : res S := fold_left (fun acc x => do s <- acc; g s x) l a.
  Lemma foldm_nil {S X} (g : S -> X -> res S) a : foldm g [] a = a. Proof. auto. Qed.
  Lemma foldm_cons {S X} (g : S -> X -> res S) x l s : foldm g (x :: l) (Ok s) = foldm g l (g s x). Proof. auto. Qed.
  Lemma foldm_bad {S X} (g : S -> X -> res S) l : foldm g l UB = UB /\ foldm g l Fuel = Fuel.
  Proof. induction l; cbn; auto. Qed.
  Lemma foldm_app {S X} (g : S -> X -> res S) l1 l2 a : foldm g (l1 ++ l2) a = foldm g l2 (foldm g l1 a). Proof. apply fold_left_app. Qed.
  Lemma foldm_bind {S X} (g : S -> X -> res S) l a : foldm g l a = (do s <- a; foldm g l (Ok s)).
  Proof. destruct a; cbn; auto; apply foldm_bad. Qed.
  Lemma foldm_flat {S X Y} (g : S -> Y -> res S) (h : X -> list Y) l : forall a, foldm (fun s x => foldm g (h x) (Ok s)) l a = foldm g (flat_map h l) a.
  Proof. induction l as [|x l IH]; intros a; auto. cbn [flat_map]. rewrite foldm_app, <- IH, (foldm_bind g (h x)). reflexivity. Qed.
  Lemma foldm_map {S X Y} (g : S -> Y -> res S) (h : X -> Y) l : forall a, foldm g (map h l) a = foldm (fun s x => g s (h x)) l a.
  Proof. induction l as [|x l IH]; intros a; auto. cbn [map]. unfold foldm in *. cbn [fold_left]. apply IH. Qed.
  Lemma foldm_ext {S X} (g h : S -> X -> res S) l a : (forall s x, In x l -> g s x = h s x) -> foldm g l a = foldm h l a.
  Proof.
    revert a. induction l as [|x l IH]; intros a E; auto. unfold foldm in *. cbn [fold_left]. rewrite IH; [|intros; apply E; right; auto]. f_equal. destruct a; auto. cbn. apply E. left. auto.
  Qed.
  Fixpoint combos {A} (cols : list (list A)) : list (list A) := match cols with [] => [[]] | c :: r => flat_map (fun x => map (cons x) (combos r)) c end.
  Lemma value_loop_ok {S} (f : list mnode -> nat -> S -> res S) : forall icon chosen st, icon <> [] ->
    value_loop icon chosen f st = foldm (fun st ns => do s <- f (chosen ++ ns) (fst st) (snd st); Ok (Datatypes.S (fst st), s)) (combos icon) (Ok st).
  Proof.
    induction icon as [|col rest IH]; intros chosen st Hne; [congruence|]. cbn [value_loop combos]. rewrite <- foldm_flat. destruct rest as [|c2 rest].
    - match goal with |- fold_left (fun acc n => rbind acc (@?g n)) col (Ok st) = _ => change (foldm (fun s n => g n s) col (Ok st) = foldm (fun s x => foldm (fun st0 ns => do s0 <- f (chosen ++ ns) (fst st0) (snd st0); Ok (Datatypes.S (fst st0), s0)) (map (cons x) (combos [])) (Ok s)) col (Ok st)) end.
      apply foldm_ext. intros [c s] n _. reflexivity.
    - match goal with |- fold_left (fun acc n => rbind acc (@?g n)) col (Ok st) = foldm ?h _ _ => change (foldm (fun s n => g n s) col (Ok st) = foldm h col (Ok st)) end.
      apply foldm_ext. intros s n _. cbv beta. rewrite IH by discriminate. rewrite foldm_map. apply foldm_ext. intros s' ns _. rewrite <- app_assoc. auto.
  Qed.
  Lemma combos_map {A B} (h : nat -> A -> B) (u : nat -> list A) : forall sel, combos (map (fun i => map (h i) (u i)) sel) = map (fun k => zip_with h sel k) (combos (map u sel)).
  Proof.
    induction sel as [|i sel IH]; cbn [map combos]; auto. rewrite IH. clear IH. induction (u i) as [|x l IHl]; auto. cbn [map flat_map]. rewrite IHl, map_app. f_equal. rewrite !map_map. auto.
  Qed.
  Lemma combos_length {A} : forall (cols : list (list A)) k, In k (combos cols) -> length k = length cols.
  Proof.
    induction cols as [|c cols IH]; intros k; cbn; [intros [<-|[]]; auto|]. rewrite in_flat_map. intros (x & _ & H). apply in_map_iff in H as (k' & <- & H). cbn. f_equal. auto.
  Qed.
  Lemma combos_in {A} : forall (cols : list (list A)) k, In k (combos cols) <-> Forall2 (fun x c => In x c) k cols.
  Proof.
    induction cols as [|c cols IH]; intros k; cbn.
    - split; [intros [<-|[]]; constructor|]. intros H. inversion H. auto.
    - rewrite in_flat_map. split.
      + intros (x & Hx & H). apply in_map_iff in H as (k' & <- & H). constructor; auto. apply IH. auto.
      + intros H. inversion H as [|x ? k' ? Hx Hk]; subst. exists x. split; auto. apply in_map_iff. exists k'. split; auto. apply IH. auto.
  Qed.
  Lemma nodup_app {A} (a b : list A) : List.NoDup a -> List.NoDup b -> (forall x, In x a -> ~ In x b) -> List.NoDup (a ++ b).
  Proof. induction 1 as [|x a Hx Ha IH]; intros Hb Hd; auto. cbn. constructor; [|apply IH; auto; intros y Hy; apply Hd; right; auto]. rewrite in_app_iff. intros [|]; auto. apply (Hd x); auto. left. auto. Qed.
  Lemma combos_nodup {A} : forall (cols : list (list A)), List.Forall (@List.NoDup A) cols -> List.NoDup (combos cols).
  Proof.
    induction cols as [|c cols IH]; intros H; [repeat constructor; auto|]. apply List.Forall_cons_iff in H as [Hc H]. specialize (IH H). cbn. clear H. induction Hc as [|x c Hx Hc IHc]; [constructor|]. cbn.
    apply nodup_app; auto.
    - apply FinFun.Injective_map_NoDup; auto. intros a b [= ->]. auto.
    - intros k Hk Hk'. apply in_map_iff in Hk as (k1 & <- & _). apply in_flat_map in Hk' as (y & Hy & Hk'). apply in_map_iff in Hk' as (k2 & [= -> ->] & _). contradiction.
  Qed.
End index.

(** ---------- the raking as a function of the weights ---------- *)
Section core.
  Context (mrows : list (list num)) (mw : list R) (frows : list (list num)) (width : nat).
  Context (Hm : rect width mrows) (Hf : rect width frows) (Hmw : length mw = length mrows).
  Notation ucol := (ucol mrows).
  Notation node := (node mrows frows).
  Definition sel (c : list bool) : list nat := keep_by c (seq 0 width).
  Lemma map_at r : length r = width -> map (at_ r) (seq 0 width) = r.
  Proof using.
    clear Hm Hf Hmw. intros H0. rewrite <- H0. apply list_eq. intros i. rewrite list_lookup_fmap. destruct (r !! i) as [x|] eqn:E.
    - rewrite lookup_seq_lt by (eapply lookup_lt_Some; eauto). cbn. unfold at_. rewrite (nth_lookup_Some _ _ _ x); auto.
    - apply lookup_ge_None in E. rewrite lookup_seq_ge by lia. auto.
  Qed.
  Lemma key_sel c r : length r = width -> key c r = map (at_ r) (sel c).
  Proof using. intros H. unfold key, sel. rewrite <- keep_by_map, map_at; auto. Qed.
  Definition keys (c : list bool) : list (list num) := combos (map ucol (sel c)).
  Definition hit (c : list bool) (k : list num) (r : list num) : bool := bool_of (key_dec (key c r) k).
  Lemma zip_map_and {A} (f g : A -> bool) l : zip_with andb (map f l) (map g l) = map (fun x => f x && g x) l.
  Proof. induction l; cbn; f_equal; auto. Qed.
  Lemma and_fold b : forall ss k f, length k = length ss ->
    fold_left (fun d m => zip_with andb d (if b : bool then mptrs m else fptrs m)) (zip_with node ss k) (map f (if b then mrows else frows)) =
    map (fun r => f r && bool_of (key_dec (map (at_ r) ss) k)) (if b then mrows else frows).
  Proof.
    induction ss as [|i ss IH]; intros [|v k] f Hl; try discriminate; cbn [zip_with fold_left].
    - apply map_ext. intros r. cbn. destruct (key_dec [] []); [|congruence]. cbn. rewrite andb_true_r. auto.
    - replace (zip_with andb (map f (if b then mrows else frows)) (if b then mptrs (node i v) else fptrs (node i v))) with (map (fun r => f r && eqn v (at_ r i)) (if b then mrows else frows)).
      2:{ destruct b; cbn [RakeProofs.node mptrs fptrs]; rewrite zip_map_and; auto. }
      rewrite IH by (cbn in Hl; lia). apply map_ext. intros r. rewrite <- andb_assoc. f_equal. cbn [map].
      destruct (key_dec (map (at_ r) ss) k) as [E|E], (key_dec (at_ r i :: map (at_ r) ss) (v :: k)) as [E2|E2]; cbn; rewrite ?andb_true_r, ?andb_false_r; auto; try congruence.
      + injection E2 as -> _. apply eqn_refl.
      + apply eqn_false. congruence.
  Qed.
  Lemma element_list_ok b c k : sel c <> [] -> length k = length (sel c) -> element_list (zip_with node (sel c) k) b = map (hit c k) (if b then mrows else frows).
  Proof.
    intros Hc Hl. assert (E : element_list (zip_with node (sel c) k) b = map (fun r => bool_of (key_dec (map (at_ r) (sel c)) k)) (if b then mrows else frows)).
    { unfold element_list. destruct (sel c) as [|i ss], k as [|v k]; try discriminate; [congruence|]. cbn [zip_with].
      replace (if b then mptrs (node i v) else fptrs (node i v)) with (map (fun r => eqn v (at_ r i)) (if b then mrows else frows)) by (destruct b; auto).
      rewrite and_fold by (cbn in Hl; lia). apply map_ext. intros r. cbn [map]. destruct (key_dec (map (at_ r) ss) k) as [E|E], (key_dec (at_ r i :: map (at_ r) ss) (v :: k)) as [E2|E2]; cbn; rewrite ?andb_true_r, ?andb_false_r; auto; try congruence.
      + injection E2 as -> _. apply eqn_refl.
      + apply eqn_false. congruence. }
    rewrite E. apply map_ext_in. intros r Hr. unfold hit. rewrite key_sel; auto. unfold rect in Hm, Hf. rewrite List.Forall_forall in Hm, Hf. destruct b; auto.
  Qed.
  Fixpoint pos (m : nat) (flags : list bool) : list nat := match flags with [] => [] | b :: r => if b then m :: pos (S m) r else pos (S m) r end.
  Lemma collect_ok : forall flags m n al, n <= al -> collect flags m n al = Ok (pos m flags).
  Proof.
    induction flags as [|b flags IH]; intros m n al H; auto. cbn [collect pos]. destruct b; [|apply IH; auto].
    destruct (Nat.leb_spec al n).
    - destruct (Nat.ltb_spec n ((al + 1) * 2)); [|lia]. rewrite IH by lia. auto.
    - destruct (Nat.ltb_spec n al); [|lia]. rewrite IH by lia. auto.
  Qed.
  Local Open Scope R_scope.
  Lemma nth_pre (pre : list R) x w2 : nth (length pre) (pre ++ x :: w2) 0 = x.
  Proof. rewrite app_nth2 by lia. rewrite Nat.sub_diag. auto. Qed.
  Lemma pos_sum : forall flags pre w2 a, length flags = length w2 -> fold_left (fun s i => s + nth i (pre ++ w2) 0) (pos (length pre) flags) a = a + Rsum (zip_with (fun (b : bool) x => if b then x else 0) flags w2).
  Proof.
    induction flags as [|b flags IH]; intros pre [|x w2] a Hl; try discriminate; cbn [pos zip_with]; [rewrite Rsum_nil; cbn; lra|]. rewrite Rsum_cons. cbn in Hl.
    replace (S (length pre)) with (length (pre ++ [x])) by (rewrite app_length; cbn; lia). replace (pre ++ x :: w2) with ((pre ++ [x]) ++ w2) by (rewrite <- app_assoc; auto).
    destruct b; cbn [fold_left]; rewrite IH by lia; [|lra]. rewrite <- app_assoc. cbn [app]. rewrite nth_pre. lra.
  Qed.
  Lemma pos_scale q : forall flags pre w2 o, length flags = length w2 ->
    fold_left (fun '(w, o) i => let x := nth i w 0 * q in (<[i := x]> w, o + x)) (pos (length pre) flags) (pre ++ w2, o) =
    (pre ++ zip_with (fun (b : bool) x => if b then x * q else x) flags w2, o + Rsum (zip_with (fun (b : bool) x => if b then x else 0) flags w2) * q).
  Proof.
    induction flags as [|b flags IH]; intros pre [|x w2] o Hl; try discriminate; cbn [pos zip_with]; [rewrite Rsum_nil; cbn; f_equal; lra|]. rewrite Rsum_cons. cbn in Hl.
    replace (S (length pre)) with (length (pre ++ [x])) by (rewrite app_length; cbn; lia).
    destruct b; cbn [fold_left].
    - rewrite nth_pre. replace (<[length pre := x * q]> (pre ++ x :: w2)) with ((pre ++ [x * q]) ++ w2).
      2:{ rewrite <- app_assoc. cbn. replace (length pre) with (length pre + 0)%nat by lia. rewrite insert_app_r. auto. }
      replace (length (pre ++ [x])) with (length (pre ++ [x * q])) by (rewrite !app_length; auto). cbv zeta. rewrite IH by lia. rewrite <- app_assoc. cbn [app]. f_equal. lra.
    - replace (pre ++ x :: w2) with ((pre ++ [x]) ++ w2) by (rewrite <- app_assoc; auto). rewrite IH by lia. rewrite <- app_assoc. cbn [app]. f_equal. lra.
  Qed.
  Definition target (c : list bool) (k : list num) : R := margin c mrows mw k.
  Definition gstep (c : list bool) (first : bool) (s : list R * R) (k : list num) : list R * R :=
    let '(w, dev) := s in
    let fs := margin c frows w k in let t := target c k in
    if (negb first && bool_of (Req_EM_T t 0)) || bool_of (Req_EM_T fs 0) then (w, dev)
    else (zip_with (fun r x => if key_dec (key c r) k then x * (t / fs) else x) frows w, Rmax (Rabs (fs - t)) dev).
  Definition note (c : list bool) (k : list num) : list nat * R := (pos 0 (map (hit c k) frows), target c k).
  Lemma zip_hit {A} c k (f g : R -> A) rows : forall w, zip_with (fun (b : bool) x => if b then f x else g x) (map (hit c k) rows) w = zip_with (fun r x => if key_dec (key c r) k then f x else g x) rows w.
  Proof. induction rows as [|r rows IH]; intros [|x w]; cbn; auto. rewrite IH. unfold hit. destruct (key_dec (key c r) k); auto. Qed.
  Lemma scaling_ok c k w t dev : length w = length frows ->
    scaling (pos 0 (map (hit c k) frows)) w t dev =
    if Req_EM_T (margin c frows w k) 0 then (w, dev) else (zip_with (fun r x => if key_dec (key c r) k then x * (t / margin c frows w k) else x) frows w, Rmax (Rabs (margin c frows w k - t)) dev).
  Proof.
    intros Hl. unfold scaling. pose proof (pos_sum (map (hit c k) frows) [] w 0 ltac:(rewrite map_length; auto)) as E. cbn [length app] in E. rewrite E, Rplus_0_l.
    replace (Rsum (zip_with (fun (b : bool) x => if b then x else 0) (map (hit c k) frows) w)) with (margin c frows w k).
    2:{ unfold margin. f_equal. symmetry. apply (zip_hit c k (fun x => x) (fun _ => 0)). }
    destruct (Req_EM_T (margin c frows w k) 0) as [|Hn]; auto.
    pose proof (pos_scale (t / margin c frows w k) (map (hit c k) frows) [] w 0 ltac:(rewrite map_length; auto)) as E2. cbn [length app] in E2. rewrite E2.
    replace (Rsum (zip_with (fun (b : bool) x => if b then x else 0) (map (hit c k) frows) w)) with (margin c frows w k).
    2:{ unfold margin. f_equal. symmetry. apply (zip_hit c k (fun x => x) (fun _ => 0)). }
    rewrite (zip_hit c k (fun x => x * (t / margin c frows w k)) (fun x => x)). f_equal. f_equal. f_equal. field. auto.
  Qed.
  Lemma pos_nil_margin c k w : pos 0 (map (hit c k) frows) = [] -> margin c frows w k = 0.
  Proof.
    unfold margin. generalize 0%nat. revert w. clear Hf. induction frows as [|r rows IH]; intros [|x w] m H; try reflexivity. cbn [map pos] in H. cbn [zip_with]. rewrite Rsum_cons. unfold hit in H at 1.
    destruct (key_dec (key c r) k); [discriminate|]. cbn in H. rewrite (IH w (S m)); auto. lra.
  Qed.
  Lemma one_set_tail c k w (nt : notes) dev first : length w = length frows ->
    (if (length (fst (note c k)) =? 0)%nat then Ok (nt, w, dev) else if negb first && bool_of (Req_EM_T (snd (note c k)) 0) then Ok (nt, w, dev)
     else let '(w', dev') := scaling (fst (note c k)) w (snd (note c k)) dev in Ok (nt, w', dev')) = Ok (nt, fst (gstep c first (w, dev) k), snd (gstep c first (w, dev) k)).
  Proof.
    intros Hl. unfold note, gstep. cbn [fst snd]. destruct (Nat.eqb_spec (length (pos 0 (map (hit c k) frows))) 0) as [E|E].
    - apply length_zero_iff_nil in E. rewrite (pos_nil_margin c k w E). replace (bool_of (Req_EM_T 0 0)) with true by (destruct (Req_EM_T 0 0); [auto|lra]). rewrite orb_true_r. auto.
    - rewrite (scaling_ok c k w (target c k) dev Hl). destruct (negb first && bool_of (Req_EM_T (target c k) 0)); auto. cbn [orb]. unfold bool_of. destruct (Req_EM_T (margin c frows w k) 0); auto.
  Qed.
  Lemma msum_ok c k : sel c <> [] -> length k = length (sel c) -> fold_left (fun a '(b, x) => if b : bool then a + x else a) (combine (element_list (zip_with node (sel c) k) true) mw) 0 = target c k.
  Proof.
    intros Hc Hl. rewrite element_list_ok by auto. unfold target, margin. clear Hm Hc Hl.
    enough (H : forall rows w a, length w = length rows -> fold_left (fun a '(b, x) => if b : bool then a + x else a) (combine (map (hit c k) rows) w) a = a + Rsum (zip_with (fun c0 x => if key_dec (key c c0) k then x else 0) rows w)) by (rewrite H by auto; lra).
    induction rows as [|r rows IH]; intros [|x w] a H; try discriminate; cbn [map combine fold_left zip_with]; [rewrite Rsum_nil; lra|]. rewrite Rsum_cons. cbn in H. rewrite IH by lia. unfold hit. destruct (key_dec (key c r) k); cbn; lra.
  Qed.
  Lemma one_set_first c k ctr nt w dev : sel c <> [] -> length k = length (sel c) -> ctr = length (noted nt) -> (ctr <= space nt)%nat -> length w = length frows ->
    exists al, (ctr < al)%nat /\ one_set mw (Some (zip_with node (sel c) k)) ctr (nt, w, dev) = Ok (Nt (noted nt ++ [note c k]) al, fst (gstep c true (w, dev) k), snd (gstep c true (w, dev) k)).
  Proof.
    intros Hc Hl Hctr Hsp Hw. unfold one_set. destruct (noted nt !! ctr) eqn:E; [apply lookup_lt_Some in E; lia|]. rewrite (msum_ok c k Hc Hl), (element_list_ok false c k Hc Hl), collect_ok by lia. cbn [rbind].
    set (al := if (space nt <=? ctr)%nat || (space nt =? 0)%nat then ((space nt + 1) * 2)%nat else space nt).
    assert (Hal : (ctr < al)%nat) by (unfold al; destruct (Nat.leb_spec (space nt) ctr), (Nat.eqb_spec (space nt) 0); cbn [orb]; lia).
    destruct (Nat.ltb_spec ctr al); [|lia]. cbn [rbind]. exists al. split; auto.
    change (pos 0 (map (hit c k) frows)) with (fst (note c k)). change (target c k) with (snd (note c k)) at 1 2 3. rewrite <- (one_set_tail c k w (Nt (noted nt ++ [note c k]) al) dev true Hw). reflexivity.
  Qed.
  Lemma one_set_later c k ctr nt w dev : noted nt !! ctr = Some (note c k) -> length w = length frows ->
    one_set mw None ctr (nt, w, dev) = Ok (nt, fst (gstep c false (w, dev) k), snd (gstep c false (w, dev) k)).
  Proof. intros E Hw. unfold one_set. rewrite E. rewrite (surjective_pairing (note c k)). cbn [rbind]. apply one_set_tail. auto. Qed.
  Lemma gstep_len c first s k : length (fst s) = length frows -> length (fst (gstep c first s k)) = length frows.
  Proof using. clear Hmw. destruct s as [w dev]. cbn [fst]. intros H. unfold gstep. destruct (_ || _); cbn [fst]; auto. rewrite zip_with_length. lia. Qed.
  Definition pass (c : list bool) (first : bool) (s : list R * R) : list R * R := fold_left (gstep c first) (keys c) s.
  Lemma pass_len c first s : length (fst s) = length frows -> length (fst (pass c first s)) = length frows.
  Proof. unfold pass. revert s. induction (keys c) as [|k l IH]; intros s H; auto. cbn. apply IH. apply gstep_len. auto. Qed.
  Definition icon (c : list bool) : list (list mnode) := keep_by c (map (fun i => map (node i) (ucol i)) (seq 0 width)).
  Lemma icon_sel c : icon c = map (fun i => map (node i) (ucol i)) (sel c).
  Proof. unfold icon, sel. apply keep_by_map. Qed.
  Lemma contrast_first c w dev : sel c <> [] -> length w = length frows ->
    exists al, one_contrast mw true (icon c) (Nt [] 0, w, dev) = Ok (Nt (map (note c) (keys c)) al, fst (pass c true (w, dev)), snd (pass c true (w, dev))).
  Proof.
    intros Hc Hw. unfold one_contrast. rewrite value_loop_ok by (rewrite icon_sel; destruct (sel c); [congruence|discriminate]). rewrite icon_sel, combos_map, foldm_map. unfold pass. fold (keys c).
    assert (Hk : forall k, In k (keys c) -> length k = length (sel c)) by (intros k H; apply combos_length in H; rewrite map_length in H; auto).
    enough (H : forall ks nt s, (forall k, In k ks -> length k = length (sel c)) -> (length (noted nt) <= space nt)%nat -> length (fst s) = length frows -> exists al,
      foldm (fun st ns => do s <- one_set mw (Some ([] ++ zip_with node (sel c) ns)) (fst st) (snd st); Ok (Datatypes.S (fst st), s)) ks (Ok (length (noted nt), (nt, fst s, snd s))) =
      Ok ((length (noted nt) + length ks)%nat, (Nt (noted nt ++ map (note c) ks) al, fst (fold_left (gstep c true) ks s), snd (fold_left (gstep c true) ks s)))).
    { destruct (H (keys c) (Nt [] 0) (w, dev) Hk ltac:(cbn; lia) Hw) as (al & E). exists al. cbn [noted length fst snd] in E. rewrite E. reflexivity. }
    clear Hk. induction ks as [|k ks IH]; intros nt s Hk Hsp Hl.
    - exists (space nt). cbn. rewrite Nat.add_0_r, app_nil_r. destruct nt; auto.
    - rewrite foldm_cons. cbn [fst snd]. change ([] ++ zip_with node (sel c) k) with (zip_with node (sel c) k). destruct (one_set_first c k (length (noted nt)) nt (fst s) (snd s) Hc (Hk k (or_introl eq_refl)) eq_refl Hsp Hl) as (al & Hal & E). rewrite E. cbn [rbind].
      destruct (IH (Nt (noted nt ++ [note c k]) al) (gstep c true s k)) as (al2 & E2).
      + intros. apply Hk. right. auto.
      + cbn. rewrite app_length. cbn. lia.
      + apply gstep_len. auto.
      + exists al2. cbn [noted] in E2. rewrite app_length in E2. cbn [length] in E2. rewrite Nat.add_1_r in E2. rewrite <- surjective_pairing. rewrite E2. cbn [map fold_left length]. rewrite <- app_assoc. cbn [app]. do 2 f_equal. lia.
  Qed.
  Lemma contrast_later c nt w dev : noted nt = map (note c) (keys c) -> length w = length frows ->
    one_contrast mw false (icon c) (nt, w, dev) = Ok (nt, fst (pass c false (w, dev)), snd (pass c false (w, dev))).
  Proof.
    intros Hn Hw. unfold one_contrast. cbn [fst snd]. rewrite Hn, map_length. unfold pass.
    change (foldm (fun s m => one_set mw None m s) (seq 0 (length (keys c))) (Ok (nt, w, dev)) = Ok (nt, fst (fold_left (gstep c false) (keys c) (w, dev)), snd (fold_left (gstep c false) (keys c) (w, dev)))).
    enough (H : forall ks pre s, keys c = pre ++ ks -> length (fst s) = length frows ->
      foldm (fun s m => one_set mw None m s) (seq (length pre) (length ks)) (Ok (nt, fst s, snd s)) = Ok (nt, fst (fold_left (gstep c false) ks s), snd (fold_left (gstep c false) ks s))).
    { apply (H (keys c) [] (w, dev)); auto. }
    induction ks as [|k ks IH]; intros pre s E Hl; auto. cbn [length seq]. rewrite foldm_cons. rewrite (one_set_later c k (length pre) nt (fst s) (snd s)); auto.
    - rewrite <- surjective_pairing. replace (S (length pre)) with (length (pre ++ [k])) by (rewrite app_length; cbn; lia). cbn [fold_left]. apply (IH (pre ++ [k])); [rewrite <- app_assoc; auto|]. apply gstep_len. auto.
    - rewrite Hn, E, map_app. rewrite lookup_app_r; rewrite map_length; auto. rewrite Nat.sub_diag. auto.
  Qed.
  Definition all_pass (config : list (list bool)) (first : bool) (s : list R * R) : list R * R := fold_left (fun s c => pass c first s) config s.
  Lemma all_pass_len config first s : length (fst s) = length frows -> length (fst (all_pass config first s)) = length frows.
  Proof. unfold all_pass. revert s. induction config as [|k l IH]; intros s H; auto. cbn. apply IH. apply pass_len. auto. Qed.
  Definition linked (config : list (list bool)) (l : list (list (list mnode) * notes)) : Prop := Forall2 (fun c p => fst p = icon c /\ noted (snd p) = map (note c) (keys c)) config l.
  Lemma main_first : forall config w dev, (forall c, In c config -> sel c <> []) -> length w = length frows ->
    exists l, linked config l /\ main_loop mw true (map (fun c => (icon c, Nt [] 0)) config) w dev = Ok (l, fst (all_pass config true (w, dev)), snd (all_pass config true (w, dev))).
  Proof.
    induction config as [|c config IH]; intros w dev Hc Hw; cbn [map main_loop].
    - exists []. split; [constructor|auto].
    - destruct (contrast_first c w dev (Hc c (or_introl eq_refl)) Hw) as (al & ->). cbn [rbind].
      destruct (IH (fst (pass c true (w, dev))) (snd (pass c true (w, dev)))) as (l & Hl & E); [intros; apply Hc; right; auto|apply pass_len; auto|]. rewrite E. cbn [rbind]. rewrite <- surjective_pairing.
      exists ((icon c, Nt (map (note c) (keys c)) al) :: l). split; [constructor; auto|]. reflexivity.
  Qed.
  Lemma main_later : forall config l w dev, linked config l -> length w = length frows ->
    main_loop mw false l w dev = Ok (l, fst (all_pass config false (w, dev)), snd (all_pass config false (w, dev))).
  Proof.
    intros config l w dev H. revert w dev. induction H as [|c [ic nt] config l [H1 H2] H IH]; intros w dev Hw; cbn [main_loop]; auto. cbn in H1, H2. subst ic.
    rewrite contrast_later by auto. cbn [rbind]. rewrite IH by (apply pass_len; auto). cbn [rbind]. rewrite <- surjective_pairing. reflexivity.
  Qed.
  Fixpoint prounds (config : list (list bool)) (tol : R) (n k : nat) (w : list R) : list R * nat :=
    match n with
    | 0%nat => (w, k)
    | S n' => let s := all_pass config (k =? 1)%nat (w, 0) in if Rlt_dec (snd s) tol then (fst s, k) else prounds config tol n' (S k) (fst s)
    end.
  Lemma rounds_later config tol : forall n k l w, (2 <= k)%nat -> linked config l -> length w = length frows -> rounds mw tol n k l w = Ok (prounds config tol n k w).
  Proof.
    induction n as [|n IH]; intros k l w Hk Hl Hw; cbn [rounds prounds]; auto. destruct (Nat.eqb_spec k 1); [lia|]. rewrite (main_later config) by auto. cbn [rbind]. destruct (Rlt_dec _ tol); auto.
    apply IH; auto. apply all_pass_len. auto.
  Qed.
  Lemma rounds_ok config tol n w : (forall c, In c config -> sel c <> []) -> length w = length frows -> rounds mw tol n 1 (map (fun c => (icon c, Nt [] 0)) config) w = Ok (prounds config tol n 1 w).
  Proof.
    intros Hc Hw. destruct n as [|n]; cbn [rounds prounds]; auto. destruct (Nat.eqb_spec 1 1); [|lia]. destruct (main_first config w 0 Hc Hw) as (l & Hl & ->). cbn [rbind]. destruct (Rlt_dec _ tol); auto.
    apply rounds_later; auto. apply all_pass_len. auto.
  Qed.
End core.
Lemma fold_Rsum l : forall a, fold_left Rplus l a = (a + Rsum l)%R.
Proof. induction l as [|x l IH]; intros a; cbn [fold_left]; [rewrite Rsum_nil; lra|]. rewrite IH, Rsum_cons. lra. Qed.
Lemma loglin_ok mrows mw frows config width w tol maxit :
  rect width mrows -> rect width frows -> nan_known mrows frows width -> length mw = length mrows -> length w = length frows -> (forall c, In c config -> sel width c <> []) -> Rsum w <> 0%R ->
  c_loglin mrows mw frows config width w tol maxit =
    let '(w', k) := prounds mrows mw frows width config tol maxit 1 (map (fun x => x * (Rsum mw / Rsum w))%R w) in Ok (Some (RO w' k (if k =? maxit then Some "c"%char else None))).
Proof.
  intros Hm Hf Hn Hmw Hw Hc Hs. unfold c_loglin. rewrite index_ok by auto. cbn [rbind]. rewrite !fold_Rsum, !Rplus_0_l. unfold cdiv. destruct (Req_EM_T (Rsum w) 0); [contradiction|].
  change (fun c : list bool => (keep_by c (map (fun i => map (node mrows frows i) (ucol mrows i)) (seq 0 width)), Nt [] 0)) with (fun c => (icon mrows frows width c, Nt [] 0)).
  rewrite rounds_ok by (auto; rewrite map_length; auto). destruct (prounds _ _ _ _ _ _ _ _ _). auto.
Qed.
