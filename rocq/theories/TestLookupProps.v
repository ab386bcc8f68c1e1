(** C82: apop_test, the lookup of a statistic in a distribution.  [u], [l], [a]: upper tail, lower tail, both; "000": none given. *)
From Coq Require Import Reals Lra.
From Verif Require Import DataModel NamesModel NamesProofs StatsModel LinModel OlsModel TestModel TestSpec TestProps.
Local Open Scope list_scope.
Local Open Scope R_scope.

(** the documented distributions, and the functions below and above *)
Inductive family := Normal | Lognormal | Uniform | T | Chi | F.
Definition family_of (s : string) : option family :=
  let l := lower_s s in
  if existsb (String.eqb l) ["normal"; "gaussian"]%string then Some Normal else if String.eqb l "lognormal" then Some Lognormal else if String.eqb l "uniform" then Some Uniform
  else if String.eqb l "t" then Some T else if existsb (String.eqb l) ["chi squared"; "chi"; "chisq"]%string then Some Chi else if String.eqb l "f" then Some F else None.
Definition below (g : cdfs) (f : family) (x p1 p2 : R) : R := match f with Normal => gaussP g (x - p1) p2 | Lognormal => lognP g x p1 p2 | Uniform => flatP g x p1 p2 | T => tP g x p1 | Chi => chiP g x p1 | F => fP g x p1 p2 end.
Definition above (g : cdfs) (f : family) (x p1 p2 : R) : R := match f with Normal => gaussQ g (x - p1) p2 | Lognormal => lognQ g x p1 p2 | Uniform => flatQ g x p1 p2 | T => tQ g x p1 | Chi => chiQ g x p1 | F => fQ g x p1 p2 end.
(** the parameters that have no default are given *)
Definition given (f : family) (p1 p2 : R) : Prop := match f with T | Chi => p1 <> 0 | F => p1 <> 0 /\ p2 <> 0 | _ => p2 <> 0 end.
(** the two tails add up; the bell is symmetric *)
Definition lawful (g : cdfs) (f : family) (p1 p2 : R) : Prop := (forall x, below g f x p1 p2 + above g f x p1 p2 = 1) /\ (f = Normal -> forall x, gaussP g (- x) p2 = gaussQ g x p2).

Definition lead (g : cdfs) stat (f : family) p1 p2 (tail : ascii) : option R :=
  let z x := if Req_EM_T x 0 then true else false in
  let p2' := match f with Normal => if z p2 then 1 else p2 | Uniform => if z p2 && (if Rle_dec 0 p1 then true else false) then 1 else p2 | _ => p2 end in
  let tail := if (tail =? "000")%char then match f with Chi => "u"%char | _ => "a"%char end else tail in
  let pick (u l b : R) := Some (if (tail =? "u")%char then u else if (tail =? "l")%char then l else b) in
  match f with
  | Normal => pick (gaussQ g (p1 - stat) p2') (gaussP g (p1 - stat) p2') (2 * gaussQ g (Rabs (p1 - stat)) p2')
  | Lognormal => pick (lognQ g stat p1 p2) (lognP g stat p1 p2) 0
  | T => if z p1 then None else pick (tQ g stat p1) (tP g stat p1) (2 * tQ g (Rabs stat) p1)
  | F => if z p1 || z p2 then None else pick (fQ g stat p1 p2) (fP g stat p1 p2) 0
  | Chi => if z p1 then None else pick (chiQ g stat p1) (chiP g stat p1) 0
  | Uniform => pick (flatQ g stat p1 p2') (flatP g stat p1 p2') (2 * flatQ g (Rabs (stat - (p1 + p2') / 2)) p1 p2')
  end.
Ltac known := repeat match goal with |- context [String.eqb ?a ?b] => let v := eval vm_compute in (String.eqb a b) in change (String.eqb a b) with v end.
Lemma test_eq g stat d p1 p2 tail : apop_test g stat (Some d) p1 p2 tail = Ok (match family_of d with Some f => lead g stat f p1 p2 tail | None => Some 0 end).
Proof.
  unfold apop_test, family_of, ci_eq. set (l := lower_s d). change (lower_s "chi squared") with "chi squared"%string. change (lower_s "chi") with "chi"%string. change (lower_s "chisq") with "chisq"%string. change (lower_s "normal") with "normal"%string. change (lower_s "gaussian") with "gaussian"%string. change (lower_s "f") with "f"%string. change (lower_s "t") with "t"%string. change (lower_s "uniform") with "uniform"%string. change (lower_s "lognormal") with "lognormal"%string. clearbody l. cbn [existsb].
  destruct (String.eqb_spec l "normal") as [->|_]; [cbn [String.eqb Ascii.eqb Bool.eqb orb andb]; unfold lead; rewrite ?andb_true_r, ?andb_false_r; reflexivity|].
  destruct (String.eqb_spec l "gaussian") as [->|_]; [cbn [String.eqb Ascii.eqb Bool.eqb orb andb]; unfold lead; rewrite ?andb_true_r, ?andb_false_r; reflexivity|].
  destruct (String.eqb_spec l "lognormal") as [->|_]; [cbn [String.eqb Ascii.eqb Bool.eqb orb andb]; unfold lead; rewrite ?andb_true_r, ?andb_false_r; reflexivity|].
  destruct (String.eqb_spec l "uniform") as [->|_]; [cbn [String.eqb Ascii.eqb Bool.eqb orb andb]; unfold lead; rewrite ?andb_true_r, ?andb_false_r; reflexivity|].
  destruct (String.eqb_spec l "t") as [->|_]; [cbn [String.eqb Ascii.eqb Bool.eqb orb andb]; unfold lead; rewrite ?andb_true_r, ?andb_false_r; destruct (Req_EM_T p1 0); reflexivity|].
  destruct (String.eqb_spec l "chi squared") as [->|_]; [cbn [String.eqb Ascii.eqb Bool.eqb orb andb]; unfold lead; rewrite ?andb_true_r, ?andb_false_r; destruct (Req_EM_T p1 0); reflexivity|].
  destruct (String.eqb_spec l "chi") as [->|_]; [cbn [String.eqb Ascii.eqb Bool.eqb orb andb]; unfold lead; rewrite ?andb_true_r, ?andb_false_r; destruct (Req_EM_T p1 0); reflexivity|].
  destruct (String.eqb_spec l "chisq") as [->|_]; [cbn [String.eqb Ascii.eqb Bool.eqb orb andb]; unfold lead; rewrite ?andb_true_r, ?andb_false_r; destruct (Req_EM_T p1 0); reflexivity|].
  destruct (String.eqb_spec l "f") as [->|_]; [cbn [String.eqb Ascii.eqb Bool.eqb orb andb]; unfold lead; rewrite ?andb_true_r, ?andb_false_r; destruct (Req_EM_T p1 0), (Req_EM_T p2 0); reflexivity|].
  cbn [orb andb]. rewrite ?andb_false_r. destruct (tail =? "000")%char; reflexivity.
Qed.
(** upper and lower tails, for every distribution but the normal *)
Theorem C82_tails g stat d f p1 p2 : family_of d = Some f -> f <> Normal -> given f p1 p2 ->
  apop_test g stat (Some d) p1 p2 "u" = Ok (Some (above g f stat p1 p2)) /\ apop_test g stat (Some d) p1 p2 "l" = Ok (Some (below g f stat p1 p2)).
Proof.
  intros Hf Hn Hg. rewrite !test_eq, Hf. unfold lead. cbn [Ascii.eqb Bool.eqb]. destruct f; try congruence; cbn [given above below] in *; try tauto; [|destruct (Req_EM_T p1 0); tauto|destruct (Req_EM_T p1 0); tauto|destruct (Req_EM_T p1 0), (Req_EM_T p2 0); tauto].
  destruct (Req_EM_T p2 0); [contradiction|]. cbn [andb]. tauto.
Qed.
(** the tails add up to one, for every distribution *)
Theorem C82_complement g stat d f p1 p2 : family_of d = Some f -> given f p1 p2 -> lawful g f p1 p2 -> exists u l, apop_test g stat (Some d) p1 p2 "u" = Ok (Some u) /\ apop_test g stat (Some d) p1 p2 "l" = Ok (Some l) /\ u + l = 1.
Proof.
  intros Hf Hg [HL HS]. assert (D : f = Normal \/ f <> Normal) by (destruct f; (left; congruence) || (right; congruence)). destruct D as [->|Hn].
  - cbn [given] in Hg. rewrite !test_eq, Hf. unfold lead. cbn [Ascii.eqb Bool.eqb]. destruct (Req_EM_T p2 0); [contradiction|]. eexists _, _. split; [reflexivity|]. split; [reflexivity|]. specialize (HL (2 * p1 - stat)). cbn [above below] in HL. replace (2 * p1 - stat - p1) with (p1 - stat) in HL by ring. lra.
  - destruct (C82_tails g stat d f p1 p2 Hf Hn Hg) as [-> ->]. eexists _, _. split; [reflexivity|]. split; [reflexivity|]. specialize (HL stat). lra.
Qed.
(** two tails: t about zero, normal about its mean *)
Theorem C82_two_tails g stat d p1 p2 tail : tail <> "u"%char -> tail <> "l"%char ->
  (family_of d = Some T -> p1 <> 0 -> apop_test g stat (Some d) p1 p2 tail = Ok (Some (2 * tQ g (Rabs stat) p1))) /\
  (family_of d = Some Normal -> p2 <> 0 -> apop_test g stat (Some d) p1 p2 tail = Ok (Some (2 * gaussQ g (Rabs (stat - p1)) p2))).
Proof.
  intros Hu Hl. split; intros Hf Hp; rewrite test_eq, Hf; unfold lead.
  - destruct (Req_EM_T p1 0); [contradiction|]. destruct (Ascii.eqb_spec tail "000"); [reflexivity|]. rewrite (proj2 (Ascii.eqb_neq _ _) Hu), (proj2 (Ascii.eqb_neq _ _) Hl). reflexivity.
  - destruct (Req_EM_T p2 0); [contradiction|]. rewrite (Rabs_minus_sym p1). destruct (Ascii.eqb_spec tail "000"); [reflexivity|]. rewrite (proj2 (Ascii.eqb_neq _ _) Hu), (proj2 (Ascii.eqb_neq _ _) Hl). reflexivity.
Qed.
(** what is left out: the standard normal, the uniform distribution from p1 to 1; upper tail for chi squared *)
Theorem C82_defaults g stat d p1 tail : (family_of d = Some Normal -> apop_test g stat (Some d) p1 0 tail = apop_test g stat (Some d) p1 1 tail) /\ (family_of d = Some Uniform -> 0 <= p1 -> apop_test g stat (Some d) p1 0 tail = apop_test g stat (Some d) p1 1 tail) /\
  (family_of d = Some Chi -> forall p2, p1 <> 0 -> apop_test g stat (Some d) p1 p2 "000" = Ok (Some (chiQ g stat p1))).
Proof.
  split; [|split]; intros Hf; [|intros Hp|intros p2 Hp]; rewrite !test_eq, Hf; unfold lead.
  - destruct (Req_EM_T 0 0), (Req_EM_T 1 0); try lra. reflexivity.
  - destruct (Req_EM_T 0 0), (Req_EM_T 1 0), (Rle_dec 0 p1); try lra. reflexivity.
  - destruct (Req_EM_T p1 0); [contradiction|]. reflexivity.
Qed.
(** no degrees of freedom: NaN *)
Theorem C82_missing g stat d f p1 p2 tail : family_of d = Some f -> f = T \/ f = Chi \/ f = F -> ~ given f p1 p2 -> apop_test g stat (Some d) p1 p2 tail = Ok None.
Proof.
  intros Hf Hc Hg. rewrite test_eq, Hf. unfold lead. destruct Hc as [->|[->| ->]]; cbn [given] in Hg; destruct (Req_EM_T p1 0), (Req_EM_T p2 0); try tauto; reflexivity.
Qed.
(** upper and lower case are the same *)
Theorem C82_case g stat d d' p1 p2 tail : lower_s d = lower_s d' -> apop_test g stat (Some d) p1 p2 tail = apop_test g stat (Some d') p1 p2 tail.
Proof. intros H. rewrite !test_eq. unfold family_of. rewrite H. reflexivity. Qed.

(** ** where the code differs from its documentation *)
(** no distribution, as in the documentation's first example *)
Theorem C82_refuted_null g stat p1 p2 tail : apop_test g stat None p1 p2 tail = UB.
Proof. reflexivity. Qed.
(** normal: the upper tail is the density below the statistic, the lower tail that above *)
Theorem C82_refuted_normal g stat d p1 p2 : family_of d = Some Normal -> p2 <> 0 -> lawful g Normal p1 p2 ->
  apop_test g stat (Some d) p1 p2 "u" = Ok (Some (below g Normal stat p1 p2)) /\ apop_test g stat (Some d) p1 p2 "l" = Ok (Some (above g Normal stat p1 p2)).
Proof.
  intros Hf Hp [_ HS]. rewrite !test_eq, Hf. unfold lead. cbn [Ascii.eqb Bool.eqb above below]. destruct (Req_EM_T p2 0); [contradiction|]. specialize (HS eq_refl). split; do 2 f_equal.
  - rewrite <- HS. f_equal. ring.
  - rewrite <- HS. f_equal. ring.
Qed.
(** lognormal: without p2 sigma is zero, not one *)
Theorem C82_refuted_lognormal g stat p1 : apop_test g stat (Some "lognormal"%string) p1 0 "u" = Ok (Some (lognQ g stat p1 0)).
Proof. rewrite test_eq. reflexivity. Qed.
(** one-tailed distributions without a tail, and unknown names, return zero, the strongest rejection *)
Theorem C82_refuted_zero g stat d p1 p2 : (family_of d = None -> forall tail, apop_test g stat (Some d) p1 p2 tail = Ok (Some 0)) /\ (family_of d = Some F -> p1 <> 0 -> p2 <> 0 -> apop_test g stat (Some d) p1 p2 "000" = Ok (Some 0)) /\ (family_of d = Some Lognormal -> apop_test g stat (Some d) p1 p2 "000" = Ok (Some 0)).
Proof.
  split; [|split]; intros Hf; [intros tail|intros H1 H2|]; rewrite test_eq, Hf; auto. unfold lead. destruct (Req_EM_T p1 0), (Req_EM_T p2 0); try contradiction. reflexivity.
Qed.
(** uniform, both tails, at the center of an interval that starts at zero or above: two *)
Theorem C82_refuted_uniform g p1 p2 : 0 <= p1 -> p2 <> 0 -> (forall x, x <= p1 -> flatQ g x p1 p2 = 1) -> apop_test g ((p1 + p2) / 2) (Some "uniform"%string) p1 p2 "a" = Ok (Some 2).
Proof.
  intros H1 H2 H. rewrite test_eq. change (family_of "uniform") with (Some Uniform). unfold lead. destruct (Req_EM_T p2 0); [contradiction|]. cbn [andb Ascii.eqb Bool.eqb]. replace ((p1 + p2) / 2 - (p1 + p2) / 2) with 0 by ring. rewrite Rabs_R0, H by auto. do 2 f_equal. ring.
Qed.
(** the hypotheses can be met *)
Definition split_cdfs : cdfs := let f1 x (_ : R) := soft x in let c1 x (_ : R) := 1 - soft x in let f2 x (_ _ : R) := soft x in let c2 x (_ _ : R) := 1 - soft x in Cdfs f1 c1 f2 c2 f1 c1 f2 c2 f1 c1 f2 c2.
Example C82_nonvacuous : (forall f, lawful split_cdfs f 3 4 /\ given f 3 4) /\ family_of "Gaussian" = Some Normal /\ family_of "F" = Some F /\ family_of "Chi Squared" = Some Chi /\ family_of "poisson" = None /\
  apop_test split_cdfs 1 (Some "T"%string) 10 0 "u" = Ok (Some (1 / 4)) /\ apop_test split_cdfs 1 (Some "T"%string) 10 0 "000" = Ok (Some (1 / 2)) /\ apop_test split_cdfs 1 (Some "normal"%string) 0 0 "u" = Ok (Some (3 / 4)).
Proof.
  split. { intros f. split; [split|]. - intros x. destruct f; cbn; lra. - intros -> x. cbn. destruct soft_sym as [-> _]. auto. - destruct f; cbn; lra. }
  split; [reflexivity|]. split; [reflexivity|]. split; [reflexivity|]. split; [reflexivity|]. assert (S1 : soft 1 = 3 / 4) by (unfold soft; rewrite Rabs_R1; lra).
  split; [|split]; rewrite test_eq.
  - change (family_of "T") with (Some T). unfold lead. destruct (Req_EM_T 10 0); [lra|]. cbn [split_cdfs tQ Ascii.eqb Bool.eqb]. rewrite S1. do 2 f_equal. lra.
  - change (family_of "T") with (Some T). unfold lead. destruct (Req_EM_T 10 0); [lra|]. cbn [split_cdfs tQ Ascii.eqb Bool.eqb]. rewrite Rabs_R1, S1. do 2 f_equal. lra.
  - change (family_of "normal") with (Some Normal). unfold lead. cbn [split_cdfs gaussQ Ascii.eqb Bool.eqb]. replace (0 - 1) with (- (1)) by ring. destruct soft_sym as [-> _]. rewrite S1. do 2 f_equal. lra.
Qed.
Print Assumptions C82_tails. Print Assumptions C82_complement. Print Assumptions C82_two_tails. Print Assumptions C82_defaults. Print Assumptions C82_missing. Print Assumptions C82_case. Print Assumptions C82_refuted_null. Print Assumptions C82_refuted_normal. Print Assumptions C82_refuted_lognormal. Print Assumptions C82_refuted_zero. Print Assumptions C82_refuted_uniform. Print Assumptions C82_nonvacuous.
