(** C110: reading a text file into a table. *)
From Coq Require Import Reals.
From Verif Require Import Base NamesModel SearchModel TextDbModel.
Local Open Scope string_scope.
Local Open Scope list_scope.
Local Open Scope nat_scope.

(** ** What is meant *)
(** what is used of strtod: a zero before a leading point changes nothing, and the two numbers too large for a double are infinite *)
Definition strtod_ok (strtod : str -> option xr) : Prop :=
  (forall s, strtod ("0"%char :: "."%char :: s) = strtod ("."%char :: s)) /\ strtod (b "9e9999999") = Some PInf /\ strtod (b "-9e9999999") = Some NInf /\ strtod (b "NULL") = None.
(** no field, or one that is blank or apop_opts.nan_string, arrives as NULL, a number as the same number, any other text as it is *)
Definition missing (nan_string : option str) (f : str) : Prop := f = [] \/ exists n, nan_string = Some n /\ ci n = ci f.
Definition arrives (strtod : str -> option xr) (nan_string : option str) (f : str) (c : option str) : Prop :=
  (missing nan_string f -> c = None) /\
  (~ missing nan_string f -> match strtod f with
       | None => c = Some f
       | Some v => exists s, c = Some s /\ strtod s = Some v
       end).
Definition no_quotes (s : str) : Prop := ~ In apo s.
(** a type or constraint without quotes, commas and brackets *)
Definition plain_type (s : str) : Prop := Forall (fun c => ~ In c [","; "("; ")"; ";"]%char /\ c <> apo /\ c <> dqu) s.

(** ** Proofs *)
Lemma has_spec c s : has c s = true <-> In c s.
Proof. unfold has. rewrite existsb_exists. split; [intros (x & H & E); apply Ascii.eqb_eq in E; subst; auto|intros H; exists c; split; auto; apply Ascii.eqb_refl]. Qed.
Lemma has_false c s : has c s = false <-> ~ In c s.
Proof. rewrite <- has_spec. destruct (has c s); split; intros; congruence. Qed.
Lemma quoted_ok q s u : ~ In q s -> hd_error u <> Some q -> quoted q (s ++ q :: u) = Some (s, u).
Proof.
  induction s as [|c s IH]; intros H Hu; cbn [app quoted].
  - rewrite Ascii.eqb_refl. destruct u as [|c u]; auto. destruct (Ascii.eqb_spec c q); auto. subst. cbn in Hu. congruence.
  - destruct (Ascii.eqb_spec c q) as [->|]; [destruct H; left; auto|]. rewrite IH; auto. intros H'. apply H. right. auto.
Qed.
Lemma skip_sp s : skip (" "%char :: s) = skip s.
Proof. reflexivity. Qed.
Lemma skip_id c s : blank c = false -> skip (c :: s) = c :: s.
Proof. intros H. cbn. rewrite H. auto. Qed.
Lemma bare_ok s u : Forall (fun c => ends c = false) s -> match u with [] => True | c :: _ => ends c = true end -> bare (s ++ u) = (s, u).
Proof.
  induction 1 as [|c s Hc Hs IH]; intros Hu; cbn [app bare].
  - destruct u as [|c u]; auto. cbn [bare]. rewrite Hu. auto.
  - rewrite Hc, IH; auto.
Qed.
Definition sep (c : ascii) : Prop := c = ","%char \/ c = ")"%char.
Lemma sep_ends c : sep c -> ends c = true /\ c <> apo /\ c <> dqu /\ blank c = false.
Proof. intros [-> | ->]; repeat split; try discriminate. Qed.

Section props.
  Context (strtod : str -> option xr) (nan_string : option str).
  Notation prep := (prep strtod nan_string).
  Notation vtext f := (match prep false f with Some v => if (length v =? 0) then b " NULL" else v | None => b " NULL" end).

  Lemma prep_blank p f : prep p f = None <-> f = [] \/ exists n, nan_string = Some n /\ ci n = ci f.
  Proof.
    unfold TextDbModel.prep. destruct f as [|c f]; [cbn; split; auto|]. change (length (c :: f) =? 0) with false. cbn [orb]. destruct nan_string as [n|].
    - case_bool_decide as H; cbn [orb]; [split; eauto|]. split; [destruct (strtod _) as [[]|]; discriminate|]. intros [|(n' & [= <-] & E)]; [discriminate|]. destruct (H E).
    - split; [destruct (strtod _) as [[]|]; discriminate|]. intros [|(n' & E & _)]; discriminate.
  Qed.
  Lemma prep_nonempty p f v : prep p f = Some v -> v <> [].
  Proof.
    unfold TextDbModel.prep. destruct f as [|c f]; [intros H; discriminate H|]. change (length (c :: f) =? 0) with false. cbn [orb]. destruct (match nan_string with Some n => _ | None => _ end); [intros H; discriminate H|].
    intros H ->. destruct (strtod (c :: f)) as [[]|]; [destruct (Ascii.eqb c "."%char)| | | |destruct p; [|destruct (has apo (c :: f))]]; vm_compute in H; discriminate H.
  Qed.
  Lemma prep_arrives f : strtod_ok strtod -> strtod f <> Some NaN -> arrives strtod nan_string f (prep true f).
  Proof.
    intros (H0 & HP & HN & _) Hn. split; intros Hb; [apply prep_blank; auto|].
    assert (prep true f <> None) as Hp by (rewrite prep_blank; auto). unfold TextDbModel.prep in *. destruct (_ || _); [congruence|]. destruct (strtod f) as [[x| | |]|] eqn:E; try congruence.
    - destruct f as [|c f]; [destruct Hb; left; auto|]. destruct (Ascii.eqb_spec c "."%char) as [->|]; eexists; split; eauto. rewrite H0. auto.
    - eexists; split; eauto.
    - eexists; split; eauto.
  Qed.

  (** prepared statements *)
  Lemma prepared_fold line : forall k i row, length row = k -> let row' := fold_left (fun row '(j, f) => match prep true f with Some v => if (length v =? 0) then row else <[j := Some v]> row | None => row end) (combine (seq i (length line)) line) row in
    length row' = k /\ forall j, (j < k) -> nth j row' None = if (i <=? j) && (j <? i + length line) then match prep true (nth (j - i) line []) with Some v => Some v | None => nth j row None end else nth j row None.
  Proof.
    induction line as [|f line IH]; intros k i row Hr; cbn [length seq combine fold_left].
    - split; auto. intros j Hj. destruct (Nat.leb_spec i j), (Nat.ltb_spec j (i + 0)); cbn [andb]; auto; lia.
    - set (row1 := match prep true f with Some v => _ | None => row end). assert (length row1 = k) as H1. { unfold row1. destruct (prep true f); auto. destruct (_ =? 0); auto. rewrite insert_length. auto. }
      destruct (IH k (S i) row1 H1) as [A B]. split; auto. intros j Hj. rewrite B by auto. destruct (Nat.eq_dec j i) as [->|Hji].
      + destruct (Nat.leb_spec (S i) i); [lia|]. destruct (Nat.leb_spec i i); [|lia]. destruct (Nat.ltb_spec i (i + S (length line))); [|lia]. cbn [andb]. rewrite Nat.sub_diag. cbn [nth]. unfold row1. destruct (prep true f) as [v|] eqn:E; auto.
        apply prep_nonempty in E. destruct v; [congruence|]. cbn [length Nat.eqb]. rewrite (nth_lookup_Some _ _ None (Some (a :: v))); auto. rewrite list_lookup_insert; auto; lia.
      + assert (nth j row1 None = nth j row None) as E1. { unfold row1. destruct (prep true f); auto. destruct (_ =? 0); auto. rewrite !nth_lookup, list_lookup_insert_ne by auto. auto. }
        rewrite E1. destruct (Nat.leb_spec (S i) j), (Nat.leb_spec i j); try lia; cbn [andb]; auto. destruct (Nat.ltb_spec j (S i + length line)), (Nat.ltb_spec j (i + S (length line))); try lia; auto. replace (j - i) with (S (j - S i)) by lia. auto.
  Qed.
  Lemma prepared_ok k line : length (insert_prepared strtod nan_string k line) = k /\ forall j, j < k -> nth j (insert_prepared strtod nan_string k line) None = prep true (nth j line []).
  Proof.
    destruct (prepared_fold line k 0 (replicate k None) (replicate_length _ _)) as [A B]. split; auto. intros j Hj. unfold insert_prepared. rewrite B by auto. cbn [Nat.leb andb]. rewrite Nat.add_0_l, Nat.sub_0_r.
    assert (nth j (replicate k (@None str)) None = None) as E by (rewrite nth_lookup, lookup_replicate_2 by auto; auto). rewrite E. destruct (Nat.ltb_spec j (length line)); [destruct (prep _ _); auto|]. rewrite nth_overflow by lia. auto.
  Qed.

  (** the text of a query *)
  Definition good (f : str) : Prop :=
    (strtod f = None -> ~ (In apo f /\ In dqu f)) /\ (forall v, strtod f = Some v -> v <> NaN /\ Forall (fun c => ends c = false) f).
  Lemma read_one f c u : strtod_ok strtod -> good f -> sep c -> sql_value (skip (" "%char :: vtext f ++ c :: u)) = Some (prep true f, c :: u).
  Proof.
    intros (_ & _ & _ & HN) [Hq Hnum] Hc. destruct (sep_ends c Hc) as (He & Ha & Hd & Hbl). rewrite skip_sp. destruct (prep false f) as [v|] eqn:E.
    - pose proof (prep_nonempty _ _ _ E) as Hne. destruct v as [|v0 v]; [congruence|]. change (length (v0 :: v) =? 0) with false. cbv iota. assert (prep true f <> None) as Hp by (rewrite prep_blank, <- (prep_blank false); congruence).
      unfold TextDbModel.prep in *. destruct (_ || _); [discriminate|]. destruct (strtod f) as [[x| | |]|] eqn:Es.
      + destruct (Hnum _ eq_refl) as [_ Hf]. injection E as E. rewrite <- E. set (w := match f with [] => f | _ => _ end) in *.
        assert (Forall (fun c => ends c = false) w) as Hw. { unfold w. destruct f as [|a f]; auto. destruct (Ascii.eqb a _); auto. }
        assert (w <> []) as Hw0 by congruence. assert (w <> b "NULL") as Hw1. { unfold w. destruct f as [|a f]; [discriminate|]. destruct (Ascii.eqb a "."%char); [discriminate|]. intros H. rewrite H in Es. congruence. }
        clearbody w. destruct w as [|w0 w]; [congruence|]. inversion Hw as [|? ? Hw0' Hwr]; subst. assert (blank w0 = false /\ Ascii.eqb w0 apo = false /\ Ascii.eqb w0 dqu = false) as (B1 & B2 & B3) by (unfold ends in Hw0'; destruct (blank w0), (has w0 _), (Ascii.eqb w0 apo), (Ascii.eqb w0 dqu); try discriminate; auto).
        cbn [app]. rewrite skip_id by auto. unfold sql_value. rewrite B2, B3. cbn [orb]. change (w0 :: w ++ c :: u) with ((w0 :: w) ++ c :: u). rewrite bare_ok by (auto; rewrite He; auto). change (length (w0 :: w) =? 0) with false. cbv iota. rewrite bool_decide_eq_false_2 by auto. auto.
      + injection E as <- <-. cbn [b list_ascii_of_string app]. rewrite skip_id by reflexivity. unfold sql_value. cbn [Ascii.eqb]. 
        change ("9"%char :: "e"%char :: "9"%char :: "9"%char :: "9"%char :: "9"%char :: "9"%char :: "9"%char :: "9"%char :: c :: u) with (b "9e9999999" ++ c :: u). rewrite bare_ok by (try (repeat (apply List.Forall_cons || apply List.Forall_nil); reflexivity); rewrite He; auto). reflexivity.
      + injection E as <- <-. cbn [b list_ascii_of_string app]. rewrite skip_id by reflexivity. unfold sql_value.
        change ("-"%char :: "9"%char :: "e"%char :: "9"%char :: "9"%char :: "9"%char :: "9"%char :: "9"%char :: "9"%char :: "9"%char :: c :: u) with (b "-9e9999999" ++ c :: u). rewrite bare_ok by (try (repeat (apply List.Forall_cons || apply List.Forall_nil); reflexivity); rewrite He; auto). reflexivity.
      + destruct (Hnum _ eq_refl) as [H _]. congruence.
      + injection E as E. rewrite <- E. destruct (has apo f) eqn:Ea.
        * cbn [app]. rewrite skip_id by reflexivity. unfold sql_value. change (Ascii.eqb dqu apo || Ascii.eqb dqu dqu) with true. cbv iota. rewrite <- app_assoc. cbn [app]. rewrite quoted_ok; auto; [|intros H; injection H as H; exact (Hd H)]. intros H. apply (Hq eq_refl). split; auto. apply has_spec. auto.
        * cbn [app]. rewrite skip_id by reflexivity. unfold sql_value. change (Ascii.eqb apo apo || Ascii.eqb apo dqu) with true. cbv iota. rewrite <- app_assoc. cbn [app]. rewrite quoted_ok; auto; [|intros H; injection H as H; exact (Ha H)]. apply has_false. auto.
    - assert (prep true f = None) as -> by (rewrite prep_blank, <- (prep_blank false); auto). cbn [b list_ascii_of_string app]. rewrite skip_sp, skip_id by reflexivity. unfold sql_value.
      change ("N"%char :: "U"%char :: "L"%char :: "L"%char :: c :: u) with (b "NULL" ++ c :: u). rewrite bare_ok by (try (repeat (apply List.Forall_cons || apply List.Forall_nil); reflexivity); rewrite He; auto). reflexivity.
  Qed.
  Lemma text_fold line : forall q c, fst (fold_left (fun '(q, comma) f => (q ++ [comma; " "%char] ++ vtext f, ","%char)) line (q, c)) = q ++ match line with [] => [] | f :: line => [c; " "%char] ++ vtext f ++ concat (map (fun f => [","; " "]%char ++ vtext f) line) end.
  Proof.
    induction line as [|f line IH]; intros q c; cbn [fold_left]; [cbn; rewrite app_nil_r; auto|]. rewrite IH, <- !app_assoc. f_equal. f_equal. f_equal. destruct line as [|g line]; [cbn; auto|]. cbn [map concat]. rewrite <- !app_assoc. auto.
  Qed.
  Lemma read_all fs : strtod_ok strtod -> forall f fuel u, Forall good (f :: fs) -> length fs < fuel -> sql_values fuel (" "%char :: vtext f ++ concat (map (fun f => [","; " "]%char ++ vtext f) fs) ++ ")"%char :: u) = Some (map (prep true) (f :: fs), u).
  Proof.
    intros Hs. induction fs as [|g fs IH]; intros f fuel u Hg Hf; (destruct fuel as [|fuel]; [lia|]); inversion Hg as [|? ? Hg1 Hg2]; subst; cbn [sql_values map concat app].
    - rewrite (read_one f ")"%char u) by (auto; right; auto). rewrite skip_id by reflexivity. reflexivity.
    - rewrite <- app_assoc. cbn [app]. rewrite (read_one f ","%char) by (auto; left; auto). rewrite skip_id by reflexivity. change (Ascii.eqb "," ","%char) with true. cbv iota. rewrite IH by (auto; cbn in Hf; lia). reflexivity.
  Qed.
  Lemma insert_text_eq tab f line : insert_text strtod nan_string tab (f :: line) = (b "INSERT INTO " ++ tab ++ b " VALUES (") ++ " "%char :: " "%char :: vtext f ++ concat (map (fun f => [","; " "]%char ++ vtext f) line) ++ b ")".
  Proof. unfold insert_text. rewrite text_fold. rewrite <- !app_assoc. cbn [app]. rewrite <- ?app_assoc. reflexivity. Qed.
  Lemma vconcat_len line : length line <= length (concat (map (fun f => [","; " "]%char ++ vtext f) line)).
  Proof. induction line as [|f line IH]; cbn [map concat length]; [lia|]. rewrite !app_length. cbn [length]. lia. Qed.
  Lemma sql_values_skip fuel s : sql_values fuel (" "%char :: s) = sql_values fuel s.
  Proof. destruct fuel; reflexivity. Qed.
  Lemma exec_good tab k line : strtod_ok strtod -> Forall good line -> line <> [] -> exec_insert tab k (insert_text strtod nan_string tab line) = if (length line =? k) then ([map (prep true) line], []) else ([], []).
  Proof.
    intros Hs Hg Hne. destruct line as [|f line]; [congruence|]. unfold exec_insert. rewrite insert_text_eq. rewrite drop_app. rewrite sql_values_skip. change (b ")") with ([")"%char]). rewrite read_all; auto.
    - rewrite map_length. destruct (_ =? k); auto.
    - rewrite !app_length. cbn [length]. rewrite !app_length. pose proof (vconcat_len line). lia.
  Qed.

End props.
Section create.
  Context (cond : str -> str).
  (** creating the table *)
  Lemma upto_ok s u c : plain_type s -> sep c -> upto (s ++ c :: u) = c :: u.
  Proof.
    intros H Hc. induction H as [|x s (H1 & H2 & H3) Hs IH]; cbn [app upto].
    - destruct Hc as [-> | ->]; reflexivity.
    - assert (has x [","; ")"]%char = false) as -> by (apply has_false; intros Hx; apply H1; cbn in *; tauto). destruct (Ascii.eqb_spec x apo); [congruence|]. destruct (Ascii.eqb_spec x dqu); [congruence|]. cbn [orb]. auto.
  Qed.
  Definition cols_text (fn : list str) : str := match fn with [] => [] | n :: fn => b " '" ++ n ++ b "' " ++ cond n ++ concat (map (fun n => b ",  '" ++ n ++ b "' " ++ cond n) fn) end.
  Lemma create_fold fn q0 rn : forall m, m < length fn ->
    fold_left (fun q i => (if (i =? 0) then (if rn : bool then q ++ b " ('row_names', " else q ++ b " (") else q ++ b "' " ++ cond (nth (i - 1) fn []) ++ b ", ") ++ b " '" ++ nth i fn []) (seq 0 (S m)) q0 ++ b "' " ++ cond (nth m fn []) =
    q0 ++ (if rn then b " ('row_names', " else b " (") ++ cols_text (take (S m) fn).
  Proof.
    induction m as [|m IH]; intros Hm.
    - destruct fn as [|n fn]; [cbn in Hm; lia|]. cbn [seq fold_left Nat.eqb nth take cols_text map concat]. rewrite take_0. cbn [map concat]. rewrite app_nil_r. destruct rn; rewrite <- !app_assoc; auto.
    - rewrite seq_S, fold_left_app. cbn [fold_left]. rewrite Nat.add_0_l. destruct (Nat.eqb_spec (S m) 0); [lia|]. replace (S m - 1) with m by lia.
      specialize (IH ltac:(lia)). set (F := fold_left _ _ _) in *. transitivity ((F ++ b "' " ++ cond (nth m fn [])) ++ b ", " ++ b " '" ++ nth (S m) fn [] ++ b "' " ++ cond (nth (S m) fn [])); [rewrite <- !app_assoc; reflexivity|]. rewrite IH. clear IH F. rewrite <- !app_assoc. f_equal. f_equal.
      destruct fn as [|n0 fn]; [cbn in Hm; lia|]. cbn [take cols_text nth]. cbn [length] in Hm. assert (exists x, fn !! m = Some x) as [x Hx] by (apply lookup_lt_is_Some; lia). rewrite (nth_lookup_Some _ _ [] x Hx). rewrite (take_S_r _ _ _ Hx), map_app, concat_app. rewrite <- !app_assoc. cbn [map concat]. rewrite app_nil_r. reflexivity.
  Qed.
  Lemma create_text_eq tab rn fn : fn <> [] -> create_text cond tab rn fn = (b "create table " ++ tab ++ b " (") ++ (if rn then b "'row_names', " else []) ++ cols_text fn ++ b ");".
  Proof.
    intros Hne. unfold create_text. cbv zeta. pose proof (create_fold fn (b "create table " ++ tab) rn (length fn - 1) ltac:(destruct fn; cbn; [congruence|lia])) as H. replace (S (length fn - 1)) with (length fn) in H by (destruct fn; cbn; [congruence|lia]).
    rewrite firstn_all in H. set (F := fold_left _ _ _) in *. transitivity ((F ++ b "' " ++ cond (nth (length fn - 1) fn [])) ++ b ");"); [rewrite <- !app_assoc; reflexivity|]. rewrite H. rewrite <- !app_assoc. f_equal. f_equal. destruct rn; reflexivity.
  Qed.
  Lemma read_cols fn : forall n fuel u, Forall no_quotes (n :: fn) -> (forall n, plain_type (cond n)) -> length fn < fuel -> sql_columns fuel (cols_text (n :: fn) ++ ")"%char :: u) = Some (n :: fn, u).
  Proof.
    induction fn as [|m fn IH]; intros n fuel u Hq Ht Hf; (destruct fuel as [|fuel]; [lia|]); inversion Hq as [|? ? Hq1 Hq2]; subst.
    - unfold cols_text. cbn [b list_ascii_of_string app map concat]. rewrite app_nil_r. cbn [sql_columns]. rewrite skip_sp, skip_id by reflexivity. change (Ascii.eqb "'"%char apo) with true. cbv iota. change ("'"%char) with apo. rewrite <- !app_assoc. cbn [app]. rewrite quoted_ok by (first [assumption | discriminate]).
      change (" "%char :: cond n ++ ")"%char :: u) with ((" "%char :: cond n) ++ ")"%char :: u). rewrite upto_ok; [|apply List.Forall_cons; [repeat split; try discriminate; cbn; intuition discriminate|apply Ht]|right; auto]. reflexivity.
    - assert (cols_text (n :: m :: fn) ++ ")"%char :: u = " "%char :: apo :: n ++ apo :: (" "%char :: cond n) ++ ","%char :: " "%char :: cols_text (m :: fn) ++ ")"%char :: u) as ->. { unfold cols_text. cbn [b list_ascii_of_string app map concat]. repeat (rewrite <- !app_assoc; cbn [app]). reflexivity. }
      cbn [sql_columns]. rewrite skip_sp, skip_id by reflexivity. change (Ascii.eqb apo apo) with true. cbv iota. rewrite quoted_ok by (first [assumption | discriminate]). rewrite upto_ok; [|apply List.Forall_cons; [repeat split; try discriminate; cbn; intuition discriminate|apply Ht]|left; auto]. change (Ascii.eqb ","%char ","%char) with true. cbv iota.
      assert (forall s, sql_columns fuel (" "%char :: s) = sql_columns fuel s) as Hsp by (intros; destruct fuel; auto). rewrite Hsp, IH; auto. cbn in Hf. lia.
  Qed.
  Lemma cols_len fn : length fn <= length (cols_text fn).
  Proof.
    destruct fn as [|n fn]; [cbn; lia|]. assert (length fn <= length (concat (map (fun n => b ",  '" ++ n ++ b "' " ++ cond n) fn))) as H.
    { induction fn as [|m fn IH]; [cbn; lia|]. cbn [map concat]. rewrite !app_length. change (length (b ",  '")) with 4. cbn [length]. lia. }
    unfold cols_text. rewrite !app_length. change (length (b " '")) with 2. cbn [length]. lia.
  Qed.
  Definition with_rows (rn : bool) (fn : list str) : list str := (if rn then [b "row_names"] else []) ++ fn.
  Lemma exec_create_ok tab rn fn : fn <> [] -> Forall no_quotes fn -> (forall n, plain_type (cond n)) -> exec_create tab (create_text cond tab rn fn) = if decide (NoDup (map ci (with_rows rn fn))) then Some (Tb (with_rows rn fn) []) else None.
  Proof.
    intros Hne Hq Ht. destruct fn as [|n fn]; [congruence|]. rewrite create_text_eq by auto. unfold exec_create. rewrite drop_app. change (b ");") with (")"%char :: b ";").
    assert (sql_columns (S (length ((b "create table " ++ tab ++ b " (") ++ (if rn then b "'row_names', " else []) ++ cols_text (n :: fn) ++ ")"%char :: b ";"))) ((if rn then b "'row_names', " else []) ++ cols_text (n :: fn) ++ ")"%char :: b ";") = Some (with_rows rn (n :: fn), b ";")) as ->.
    { set (fuel := S _). assert (length fn + 1 < fuel) as Hf. { unfold fuel. rewrite !app_length. pose proof (cols_len (n :: fn)). cbn [length] in *. lia. } clearbody fuel. unfold with_rows. destruct rn; cbn [app].
      - destruct fuel as [|fuel]; [lia|]. cbn [b list_ascii_of_string app]. cbn [sql_columns]. rewrite skip_id by reflexivity. change (Ascii.eqb "'"%char apo) with true. cbv iota. 
        pose proof (quoted_ok apo (b "row_names") (","%char :: " "%char :: cols_text (n :: fn) ++ ")"%char :: ";"%char :: []) ltac:(cbn; intuition discriminate) ltac:(cbn; discriminate)) as Hq'. cbn [b list_ascii_of_string app] in Hq'. change apo with "'"%char in Hq' at 2. rewrite Hq'. clear Hq'. change (upto (","%char :: ?x)) with (","%char :: x). cbv iota. change (Ascii.eqb ","%char ","%char) with true. cbv iota.
        assert (forall s, sql_columns fuel (" "%char :: s) = sql_columns fuel s) as Hsp by (intros; destruct fuel; auto). rewrite Hsp, read_cols by (auto; lia). reflexivity.
      - apply read_cols; auto. lia. }
    rewrite bool_decide_eq_true_2 by auto. cbn [andb]. destruct (decide _); [rewrite bool_decide_eq_true_2 by auto|rewrite bool_decide_eq_false_2 by auto]; auto.
  Qed.
End create.

(** ** C110 *)
Lemma load_new strtod nan_string cond decimal ie tab rn nm first lines fn : field_names decimal nm first = Ok fn -> fn <> [] -> Forall no_quotes fn -> (forall n, plain_type (cond n)) -> NoDup (map ci (with_rows rn fn)) ->
  load strtod nan_string cond decimal None ie tab rn nm (first :: lines) =
    if (length first <=? 999) then if (length (with_rows rn fn) =? length first) then Ok (Some (Tb (with_rows rn fn) (map (insert_prepared strtod nan_string (length first)) (first :: lines))), true) else Ok (Some (Tb (with_rows rn fn) []), false)
    else Ok (Some (Tb (with_rows rn fn) (concat (map (fun l => fst (exec_insert tab (length (with_rows rn fn)) (insert_text strtod nan_string tab l))) (first :: lines)))), true).
Proof. intros Hfn Hne Hq Ht Hd. unfold load. rewrite Hfn. cbn [rbind]. rewrite exec_create_ok by auto. destruct (decide _); [|contradiction]. cbn [t_cols t_rows app]. reflexivity. Qed.
(** C110: a new table has the file's names for its columns (after a column of row names, if the lines begin with one), and for each line a row, in which each field arrives; a line too short is
    filled up with NULL. *)
Theorem C110_rows : forall strtod nan_string cond decimal if_exists tab row_names top lines k,
  strtod_ok strtod -> top <> [] -> Forall no_quotes top -> (forall n, plain_type (cond n)) ->
  let names := (if row_names : bool then [b "row_names"] else []) ++ top in
  NoDup (map ci names) -> length names = k -> k <= 999 -> match lines with [] => False | first :: _ => length first = k end ->
  Forall (Forall (fun f => strtod f <> Some NaN)) lines -> strtod [] <> Some NaN ->
  exists rows, load strtod nan_string cond decimal None if_exists tab row_names (FromFile top) lines = Ok (Some (Tb names rows), true) /\
    Forall2 (fun line row => length row = k /\ forall j, j < k -> arrives strtod nan_string (nth j line []) (nth j row None)) lines rows.
Proof.
  intros strtod nan_string cond decimal ie tab rn top lines k Hs Hne Hq Ht names Hd Hk Hk9 Hl Hnan Hnil. destruct lines as [|first lines]; [contradiction|]. subst k.
  exists (map (insert_prepared strtod nan_string (length names)) (first :: lines)). split.
  - rewrite (load_new _ _ _ _ _ _ _ _ _ _ top) by auto. fold (with_rows rn top) in names. unfold names in *. rewrite Hl. destruct (Nat.leb_spec (length (with_rows rn top)) 999); [|lia]. rewrite Nat.eqb_refl. auto.
  - clear - Hs Hnan Hnil. induction Hnan as [|line ls Hf Hr IH]; cbn [map]; constructor; auto. destruct (prepared_ok strtod nan_string (length names) line) as [A B]. split; auto. intros j Hj. rewrite B by auto. apply prep_arrives; auto.
    destruct (Nat.lt_ge_cases j (length line)); [|rewrite nth_overflow by lia; auto]. rewrite List.Forall_forall in Hf. apply Hf. apply nth_In. auto.
Qed.
Print Assumptions C110_rows.
(** C110: so for a table of more than 999 columns, if the lines all have as many fields, no text has quotes of both kinds in it, and the numbers have nothing but a number's letters. *)
Theorem C110_wide : forall strtod nan_string cond decimal if_exists tab row_names top lines k,
  strtod_ok strtod -> top <> [] -> Forall no_quotes top -> (forall n, plain_type (cond n)) ->
  let names := (if row_names : bool then [b "row_names"] else []) ++ top in
  NoDup (map ci names) -> length names = k -> 999 < k -> lines <> [] -> Forall (fun line => length line = k /\ Forall (good strtod) line) lines ->
  exists rows, load strtod nan_string cond decimal None if_exists tab row_names (FromFile top) lines = Ok (Some (Tb names rows), true) /\
    Forall2 (Forall2 (arrives strtod nan_string)) lines rows.
Proof.
  intros strtod nan_string cond decimal ie tab rn top lines k Hs Hne Hq Ht names Hd Hk Hk9 Hl Hg. destruct lines as [|first lines]; [congruence|]. subst k.
  exists (map (map (prep strtod nan_string true)) (first :: lines)). split.
  - rewrite (load_new _ _ _ _ _ _ _ _ _ _ top) by auto. fold (with_rows rn top) in names. unfold names in *. inversion Hg as [|? ? [Hf1 _] _]; subst. rewrite Hf1. destruct (Nat.leb_spec (length (with_rows rn top)) 999); [lia|].
    assert (concat (map (fun l => fst (exec_insert tab (length (with_rows rn top)) (insert_text strtod nan_string tab l))) (first :: lines)) = map (map (prep strtod nan_string true)) (first :: lines)) as ->; auto.
    clear - Hg Hs Hk9. induction Hg as [|line ls [Hlen Hf] Hr IH]; cbn [map concat]; auto. assert (line <> []) as Hne0 by (intros ->; cbn in Hlen; lia). rewrite IH, exec_good by auto. rewrite Hlen, Nat.eqb_refl. auto.
  - clear - Hs Hg. induction Hg as [|line ls [_ Hf] Hr IH]; cbn [map]; constructor; auto. clear - Hs Hf. induction Hf as [|f line H Hf IH]; cbn [map]; constructor; auto. apply prep_arrives; auto. intros E. destruct H as [_ H]. destruct (H _ E) as [H1 _]. congruence.
Qed.
Print Assumptions C110_wide.
(** C110: if there is such a table already: with 'n' nothing is done; with 'a' the rows are added to the old ones, with 'd' they replace them, with 'o' the table is made anew. *)
Theorem C110_existing : forall strtod nan_string cond decimal tab row_names nm lines (old t : table), load strtod nan_string cond decimal None "n" tab row_names nm lines = Ok (Some t, true) -> length (t_cols old) = length (t_cols t) ->
  let into c := load strtod nan_string cond decimal (Some old) c tab row_names nm lines in
  into "n"%char = Ok (Some old, false) /\ into "a"%char = Ok (Some (Tb (t_cols old) (t_rows old ++ t_rows t)), true) /\ into "d"%char = Ok (Some (Tb (t_cols old) (t_rows t)), true) /\ into "o"%char = Ok (Some t, true).
Proof.
  intros strtod nan_string cond decimal tab rn nm lines old t Hl Hc into. split; [reflexivity|]. unfold into. unfold load in *. destruct lines as [|first lines]; [discriminate|]. cbv iota zeta in *. change (Ascii.eqb "a"%char "n"%char) with false. change (Ascii.eqb "d"%char "n"%char) with false. change (Ascii.eqb "o"%char "n"%char) with false.
  change (Ascii.eqb "a"%char "d"%char) with false. change (Ascii.eqb "d"%char "d"%char) with true. change (Ascii.eqb "o"%char "d"%char) with false. change (Ascii.eqb "a"%char "o"%char) with false. change (Ascii.eqb "o"%char "o"%char) with true. cbv iota.
  destruct (field_names decimal nm first) as [fn| |]; cbn [rbind] in *; try discriminate. destruct (exec_create _ _) as [new|] eqn:Ec; [|discriminate].
  assert (t_rows new = []) as Hr. { unfold exec_create in Ec. destruct (sql_columns _ _) as [[ns u]|]; [|discriminate]. destruct (_ && _); [|discriminate]. injection Ec as <-. reflexivity. } rewrite Hr in *. cbn [app] in *. cbn [t_cols t_rows app].
  destruct (length first <=? 999).
  - destruct (Nat.eqb_spec (length (t_cols new)) (length first)) as [E|E]; [|discriminate]. injection Hl as <-. cbn [t_cols t_rows] in *. rewrite Hc. destruct (Nat.eqb_spec (length (t_cols new)) (length first)); [|lia]. auto.
  - injection Hl as <-. cbn [t_cols t_rows] in *. rewrite Hc. auto.
Qed.
Print Assumptions C110_existing.

(** C110, refuted: every field arrives.  Of a line longer than the first only as many fields do, without error. *)
Theorem C110_refuted_long : forall strtod nan_string k line, insert_prepared strtod nan_string k line = insert_prepared strtod nan_string k (take k line).
Proof.
  intros strtod nan_string k line. destruct (prepared_ok strtod nan_string k line) as [A B], (prepared_ok strtod nan_string k (take k line)) as [C D]. apply (List.nth_ext _ _ None None); [lia|]. intros j Hj. rewrite B, D by lia. f_equal. rewrite !nth_lookup, lookup_take by lia. auto.
Qed.
Print Assumptions C110_refuted_long.
(** C110, refuted: a file with row names, but without column names in its top line, can be read.  The names made up, or the user's, are as many as the fields of a line, and the column of row names comes on top:
    the table is made, and no row is inserted. *)
Theorem C110_refuted_row_names : forall strtod nan_string cond decimal if_exists tab nm first lines, (forall n, plain_type (cond n)) -> (forall i, no_quotes (decimal i)) -> first <> [] -> length first <= 999 ->
  match nm with FromFile _ => False | FromUser l => Forall no_quotes l | Numbered => True end ->
  load strtod nan_string cond decimal None if_exists tab true nm (first :: lines) = UB \/ exists t, load strtod nan_string cond decimal None if_exists tab true nm (first :: lines) = Ok (t, false) /\ match t with Some t => t_rows t = [] | None => True end.
Proof.
  intros strtod nan_string cond decimal ie tab nm first lines Ht Hdec Hne Hk Hnm. assert (field_names decimal nm first = UB \/ exists fn, field_names decimal nm first = Ok fn /\ length fn = length first /\ Forall no_quotes fn) as [H|(fn & H & Hl & Hq)].
  { unfold field_names. destruct nm as [|l|]; [contradiction| |].
    - destruct (Nat.leb_spec (length first) (length l)); auto. right. eexists. split; auto. rewrite take_length. split; [lia|]. apply List.Forall_forall. intros x Hx. rewrite List.Forall_forall in Hnm. apply Hnm. apply elem_of_list_In, elem_of_take in Hx. destruct Hx as (i & Hx & _). apply elem_of_list_lookup_2, elem_of_list_In in Hx. auto.
    - right. eexists. split; auto. rewrite map_length, seq_length. split; auto. apply List.Forall_forall. intros x Hx. apply in_map_iff in Hx. destruct Hx as (i & <- & _). intros Hx. apply in_app_or in Hx. destruct Hx as [Hx|Hx]; [cbn in Hx; intuition discriminate|apply (Hdec i Hx)]. }
  - left. unfold load. rewrite H. reflexivity.
  - right. unfold load. rewrite H. cbn [rbind]. assert (fn <> []) as Hfn by (destruct fn; [destruct first; [congruence|cbn in Hl; lia]|discriminate]). rewrite exec_create_ok by auto. destruct (decide _); [|exists None; auto]. cbn [t_cols]. destruct (Nat.leb_spec (length first) 999); [|lia].
    unfold with_rows. cbn [app length]. rewrite Hl. destruct (Nat.eqb_spec (S (length first)) (length first)); [lia|]. exists (Some (Tb (with_rows true fn) [])). split; reflexivity.
Qed.
Print Assumptions C110_refuted_row_names.
(** C110, refuted: a table of more than 999 columns takes short lines as others do.  They are lost. *)
Theorem C110_refuted_short : forall strtod nan_string tab k line, strtod_ok strtod -> Forall (good strtod) line -> line <> [] -> length line < k -> exec_insert tab k (insert_text strtod nan_string tab line) = ([], []).
Proof. intros. rewrite exec_good by auto. destruct (Nat.eqb_spec (length line) k); [lia|auto]. Qed.
Print Assumptions C110_refuted_short.
(** C110, refuted: the fields of a file are data.  In the last field of such a line an apostrophe, a double quote, a bracket and a semicolon end the statement, and what the file says next is executed. *)
Theorem C110_refuted_command : forall strtod nan_string tab f fs cmd, let field := [apo; dqu] ++ b ");" ++ cmd in
  strtod_ok strtod -> Forall (good strtod) (f :: fs) -> strtod field = None -> ~ missing nan_string field ->
  exec_insert tab (length fs + 2) (insert_text strtod nan_string tab (f :: fs ++ [field])) = ([map (prep strtod nan_string true) (f :: fs) ++ [Some [apo]]], cmd ++ [dqu] ++ b ")").
Proof.
  intros strtod nan_string tab f fs cmd field Hs Hg Hf Hm. unfold exec_insert. rewrite insert_text_eq, drop_app, sql_values_skip, map_app, concat_app. cbn [map concat].
  assert (prep strtod nan_string false field = Some ([dqu] ++ field ++ [dqu])) as E. { destruct (prep strtod nan_string false field) eqn:E0; [|apply prep_blank in E0; contradiction]. unfold prep in E0. destruct (_ || _); [discriminate|]. rewrite Hf in E0. change (has apo field) with true in E0. cbv iota in E0. auto. }
  rewrite E. change (length ([dqu] ++ field ++ [dqu]) =? 0) with false. cbv iota. set (fuel := S _). assert (length fs + 1 < fuel) as Hfuel. { unfold fuel. rewrite !app_length. cbn [length]. rewrite !app_length. cbn [length]. pose proof (vconcat_len strtod nan_string fs). lia. } clearbody fuel.
  assert (forall f fs fuel, Forall (good strtod) (f :: fs) -> length fs + 1 < fuel -> sql_values fuel (" "%char :: match prep strtod nan_string false f with Some v => if (length v =? 0) then b " NULL" else v | None => b " NULL" end ++
    (concat (map (fun f => [","; " "]%char ++ match prep strtod nan_string false f with Some v => if (length v =? 0) then b " NULL" else v | None => b " NULL" end) fs) ++ ([","; " "]%char ++ [dqu] ++ field ++ [dqu]) ++ []) ++ b ")") = Some (map (prep strtod nan_string true) (f :: fs) ++ [Some [apo]], ";"%char :: cmd ++ [dqu] ++ b ")")) as H.
  { clear - Hs. intros f fs. revert f. induction fs as [|g fs IH]; intros f fuel Hg Hl; (destruct fuel as [|fuel]; [lia|]); inversion Hg as [|? ? Hg1 Hg2]; subst; cbn [sql_values map concat app].
    - rewrite (read_one strtod nan_string f ","%char) by (auto; left; auto). rewrite skip_id by reflexivity. change (Ascii.eqb "," ","%char) with true. cbv iota. destruct fuel as [|fuel]; [cbn in Hl; lia|]. rewrite sql_values_skip. cbn [sql_values]. rewrite skip_id by reflexivity. unfold sql_value. change (Ascii.eqb dqu apo || Ascii.eqb dqu dqu) with true. cbv iota. unfold field. cbn [app b list_ascii_of_string].
      change (quoted dqu (apo :: dqu :: ")"%char :: ?x)) with (Some ([apo], ")"%char :: x)). cbv iota. rewrite skip_id by reflexivity. change (Ascii.eqb ")" ","%char) with false. change (Ascii.eqb ")" ")"%char) with true. cbv iota. rewrite <- !app_assoc. reflexivity.
    - rewrite <- !app_assoc. cbn [app]. rewrite (read_one strtod nan_string f ","%char) by (auto; left; auto). rewrite skip_id by reflexivity. change (Ascii.eqb "," ","%char) with true. cbv iota. specialize (IH g fuel Hg2 ltac:(cbn in Hl; lia)). cbn [app] in IH. rewrite <- !app_assoc in IH. cbn [app] in IH. rewrite IH. reflexivity. }
  rewrite H by auto. rewrite app_length, map_length. cbn [length]. destruct (Nat.eqb_spec (S (length fs) + 1) (length fs + 2)); [|lia]. change (Ascii.eqb ";" ";"%char) with true. cbv iota. auto.
Qed.
Print Assumptions C110_refuted_command.
(** C110, refuted: a column can have an apostrophe in its name.  The statement that makes the table cannot be read. *)
Theorem C110_refuted_name : forall strtod nan_string decimal lines, lines <> [] -> load strtod nan_string (fun _ => b "numeric") decimal None "n" (b "t") false (FromFile [b "it's"; b "x"]) lines = Ok (None, false).
Proof. intros strtod nan_string decimal [|first lines] H; [congruence|reflexivity]. Qed.
Print Assumptions C110_refuted_name.
(** C110, refuted: so a NaN that is written in another way than nan_string.  It arrives as text that is not a number. *)
Theorem C110_refuted_nan : forall strtod nan_string f, strtod f = Some NaN -> ~ missing nan_string f -> prep strtod nan_string true f = Some (b "0.0/0.0").
Proof. intros strtod nan_string f Hf Hm. destruct (prep strtod nan_string true f) eqn:E0; [|apply prep_blank in E0; contradiction]. unfold prep in E0. destruct (_ || _); [discriminate|]. rewrite Hf in E0. auto. Qed.
Print Assumptions C110_refuted_nan.
(** a reader of numbers that knows halves and infinities *)
Definition ex_strtod (s : str) : option xr :=
  match s with
  | "."%char :: _ | "0"%char :: "."%char :: _ => Some (Fin (1 / 2)%R)
  | "9"%char :: "e"%char :: _ => Some PInf
  | "-"%char :: "9"%char :: "e"%char :: _ => Some NInf
  | _ => None
  end.
Example C110_nonvacuous : strtod_ok ex_strtod /\ Forall (Forall (fun f => ex_strtod f <> Some NaN)) [[b "x"; b ".5"; b "it's"]; [b "y"; b "NaN"]] /\ NoDup (map ci [b "row_names"; b "a"; b "b"]) /\
  load ex_strtod (Some (b "NaN")) (fun _ => b "numeric") (fun _ => b "0") None "n" (b "t") true (FromFile [b "a"; b "b"]) [[b "x"; b ".5"; b "it's"]; [b "y"; b "NaN"]] =
  Ok (Some (Tb [b "row_names"; b "a"; b "b"] [[Some (b "x"); Some (b "0.5"); Some (b "it's")]; [Some (b "y"); None; None]]), true) /\ good ex_strtod (b "it's").
Proof.
  split; [repeat split|]. split; [repeat (apply List.Forall_cons || apply List.Forall_nil); discriminate|]. split; [apply (bool_decide_eq_true_1 (NoDup (map ci [b "row_names"; b "a"; b "b"]))); reflexivity|]. split; [reflexivity|].
  split; [|discriminate]. intros _ [_ H]. cbn in H. intuition discriminate.
Qed.
