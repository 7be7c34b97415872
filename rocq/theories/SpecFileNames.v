(** What the file names of checkpoints are to do (C73). *)
From Coq Require Import Ascii String.
From Verif Require Import Base.

Definition text := list ascii.
Definition lit (s : string) : text := list_ascii_of_string s.
Definition is_digit (c : ascii) : Prop := (48 <= nat_of_ascii c <= 57)%nat.
(** The number that decimal digits stand for. *)
Definition value (t : text) : nat := fold_left (fun a c => (10 * a + (nat_of_ascii c - 48))%nat) t 0%nat.
(** t stands for n in at least w digits, with leading zeros only if these are needed to get w. *)
Definition in_digits (w n : nat) (t : text) : Prop :=
  Forall is_digit t /\ value t = n /\ (w <= length t)%nat /\ ((w < length t)%nat -> hd_error t <> Some "0"%char).
Definition contains (p f : text) : Prop := exists a b, f = (a ++ p ++ b)%list.
