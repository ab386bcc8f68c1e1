(** C111: apop_table_exists. *)
From Coq Require Import Reals.
From Verif Require Import Base NamesModel SearchModel TextDbModel.
Local Open Scope string_scope.
Local Open Scope list_scope.
Local Open Scope nat_scope.

(** a database: no two objects with the same name *)
Definition valid_db (db : list dbobj) : Prop := List.NoDup (map (fun o => ci (o_name o)) db).
(** a table or view of that name *)
Definition is_there (db : list dbobj) (name : str) : Prop := exists o, In o db /\ o_name o = name /\ (o_kind o = OTable \/ o_kind o = OView) /\ o_temp o = false.
Lemma listed_spec k name db : listed k name db = true <-> exists o, In o db /\ o_name o = name /\ o_kind o = k /\ o_temp o = false.
Proof.
  unfold listed. rewrite existsb_exists. split.
  - intros (o & Ho & E). apply andb_true_iff in E as [E En]. apply andb_true_iff in E as [E Et]. apply bool_decide_eq_true in En. exists o. repeat split; auto; [destruct (o_kind o), k; try discriminate; auto|destruct (o_temp o); [discriminate|auto]].
  - intros (o & Ho & <- & <- & Et). exists o. split; auto. rewrite Et, bool_decide_eq_true_2 by auto. destruct (o_kind o); auto.
Qed.
(** C111: the answer is whether there is a table or view of that name.  Asked only, the database is as it was. *)
Theorem C111_answer : forall db name remove, snd (table_exists (Some db) name remove) = true <-> is_there db name.
Proof.
  intros db name remove. cbn. rewrite orb_true_iff, !listed_spec. unfold is_there. split; [intros [(o & ?)|(o & ?)]; exists o; tauto|]. intros (o & A & B & [C|C] & D); [left|right]; exists o; auto.
Qed.
Print Assumptions C111_answer.
Theorem C111_asking : forall db name, fst (table_exists db name false) = db.
Proof. intros [db|] name; reflexivity. Qed.
Print Assumptions C111_asking.
Lemma nodup_name db o o' : valid_db db -> In o db -> In o' db -> ci (o_name o) = ci (o_name o') -> o = o'.
Proof.
  unfold valid_db. induction db as [|x db IH]; intros Hv H H' E; [destruct H|]. cbn [map] in Hv. inversion Hv as [|? ? Hn Hv']; subst. destruct H as [->|H], H' as [->|H']; auto.
  - destruct Hn. rewrite E. apply in_map_iff. eauto.
  - destruct Hn. rewrite <- E. apply in_map_iff. eauto.
Qed.
(** C111: told to remove it, the table or view is gone, and everything else is there still. *)
Theorem C111_removal : forall db name, valid_db db -> is_there db name -> exists db', fst (table_exists (Some db) name true) = Some db' /\ ~ is_there db' name /\ forall o, In o db' <-> In o db /\ o_name o <> name.
Proof.
  intros db name Hv (o & Ho & En & Hk & Et). assert (exists k, o_kind o = k /\ (k = OTable \/ k = OView) /\ fst (table_exists (Some db) name true) = Some (sql_drop k name db)) as (k & Ek & Hkk & E).
  { exists (o_kind o). split; auto. split; auto. cbn. destruct Hk as [Hk|Hk]; rewrite Hk.
    - assert (listed OTable name db = true) as -> by (apply listed_spec; eauto). reflexivity.
    - assert (listed OView name db = true) as -> by (apply listed_spec; eauto). destruct (listed OTable name db) eqn:El; [|reflexivity]. apply listed_spec in El. destruct El as (o' & A & B & C & D). assert (o = o') by (apply (nodup_name db); auto; congruence). subst. congruence. }
  rewrite E. eexists. split; [reflexivity|]. assert (forall x, In x (sql_drop k name db) <-> In x db /\ o_name x <> name) as H.
  { intros x. unfold sql_drop. rewrite List.filter_In. split.
    - intros [Hx Hn]. split; auto. intros Exn. assert (x = o) by (apply (nodup_name db); auto; congruence). subst x. rewrite Ek, bool_decide_eq_true_2 in Hn by congruence. destruct k; discriminate.
    - intros [Hx Hn]. split; auto. apply negb_true_iff, andb_false_iff. right. apply bool_decide_eq_false. intros Ec. apply Hn. assert (x = o) by (apply (nodup_name db); auto; congruence). subst. auto. }
  split; [|exact H]. intros (x & Hx & Exn & _). apply H in Hx. tauto.
Qed.
Print Assumptions C111_removal.
(** C111: a name that is not there: nothing is removed. *)
Theorem C111_absent : forall db name remove, ~ is_there db name -> table_exists (Some db) name remove = (Some db, false).
Proof.
  intros db name remove H. pose proof (C111_answer db name remove) as HA. unfold table_exists in *. cbv zeta in *. cbn [snd] in HA. destruct (listed OTable name db || listed OView name db) eqn:El; [destruct H; tauto|]. rewrite andb_false_r. auto.
Qed.
Print Assumptions C111_absent.
(** C111, refuted: if the answer is no, a table of that name can be created.  One in other letters (T for t), or a temporary one, is in the way: SQLite finds it by that name. *)
Theorem C111_refuted_case : forall name, ci name <> name -> let db := [Ob OTable (ci name) false] in valid_db db /\ table_exists (Some db) name true = (Some db, false) /\ sql_drop OTable name db = [].
Proof.
  intros name Hn db. assert (ci (ci name) = ci name) as Hcc. { unfold ci. rewrite map_map. apply map_ext. intros [[] [] [] [] [] [] [] []]; reflexivity. } split; [repeat constructor; cbn; tauto|]. split; [|unfold sql_drop, db; cbn [List.filter o_kind o_name okind_eqb andb]; rewrite Hcc, bool_decide_eq_true_2 by auto; reflexivity].
  apply C111_absent. intros (o & [<-|[]] & E & _). cbn in E. congruence.
Qed.
Print Assumptions C111_refuted_case.
Theorem C111_refuted_temp : forall name, let db := [Ob OTable name true] in valid_db db /\ table_exists (Some db) name true = (Some db, false) /\ sql_drop OTable name db = [].
Proof.
  intros name db. split; [repeat constructor; cbn; tauto|]. split; [|unfold sql_drop, db; cbn [List.filter o_kind o_name okind_eqb andb]; rewrite bool_decide_eq_true_2 by auto; reflexivity]. apply C111_absent. intros (o & [<-|[]] & _ & _ & E). discriminate.
Qed.
Print Assumptions C111_refuted_temp.
Example C111_nonvacuous : exists db, valid_db db /\ is_there db (b "v") /\ table_exists (Some db) (b "v") true = (Some [Ob OTable (b "t") false], true).
Proof.
  exists [Ob OTable (b "t") false; Ob OView (b "v") false]. split; [repeat constructor; cbn; intuition discriminate|]. split; [eexists; split; [right; left; reflexivity|]; cbn; auto|]. vm_compute. reflexivity.
Qed.
