(** What printed sets should say (C112): numerals and what they mean, the table a set holds. *)
From Coq Require Import Reals.
From Verif Require Import Base ParseSpec.
Local Open Scope list_scope.
Local Open Scope nat_scope.

(** ---- numerals ---- *)
Definition is_digit (c : ascii) : Prop := 48 <= nat_of_ascii c <= 57.
Definition digit_value (c : ascii) : Z := Z.of_nat (nat_of_ascii c) - 48.
Definition numeral_value (s : list ascii) : Z := fold_left (fun a c => (10 * a + digit_value c)%Z) s 0%Z.
Definition minus : ascii := "-"%char.  Definition point : ascii := "."%char.
(** a decimal numeral, and the number it is *)
Definition numeral (s : list ascii) (x : R) : Prop :=
  exists (neg : bool) ip fp, s = (if neg then [minus] else []) ++ ip ++ (match fp with [] => [] | _ => point :: fp end) /\
    ip <> [] /\ Forall is_digit ip /\ Forall is_digit fp /\
    x = ((if neg then -1 else 1) * (IZR (numeral_value ip) + IZR (numeral_value fp) / 10 ^ length fp))%R.
(** a reader of numbers (strtod) that knows decimal numerals *)
Definition reads_numerals (number : list ascii -> option R) : Prop := forall s x, numeral s x -> number s = Some x.
(** neither digits, minus, nor the point delimit fields; blanks within a field are no delimiters *)
Definition numbers_free (delims : list ascii) : Prop :=
  (forall c, is_digit c \/ c = minus \/ c = point -> ~ In c delims) /\ ~ In (ascii_of_nat 32) delims.
(** a name that can stand in a field without quotes: not empty, no character with a meaning of its own, no blank at its ends *)
Definition good_name (delims : list ascii) (s : list ascii) : Prop :=
  Forall (fun c => ordinary delims c \/ soft_blank delims c) s /\
  (exists c r, s = c :: r /\ ordinary delims c) /\ (exists c r, s = r ++ [c] /\ ordinary delims c).
(** how far the number read back may be from the one printed: half of the last digit printed, and not at all for whole numbers *)
Definition close_to (x y : R) : Prop := (Rabs (y - x) <= / 2000000)%R /\ ((exists k, x = IZR k) -> y = x).
