(** Property theorems C46 and C47, files with more than 2147483647 ([int_max]) bytes.  [rows]: all rows of the CSV parser; [written it]: the records
    in the order in which they are written, each as often as it is counted. *)
From Coq Require Import Ascii String.
From Verif Require Import Base Text Csv CsvProofs Data DataProofs DataCut LongFile.
Local Open Scope N_scope.

(** no such file is ever read to its end: the int that counts the bytes overflows *)
Theorem C47_long_refuted : forall d content fuel x, delimiter_ok d = true -> int_max < lenN content -> rows fuel (new_parser (SFile content) d false) <> Ok x.
Proof. exact long_file. Qed.
Print Assumptions C47_long_refuted.
(** so a data set that takes that many bytes is written but cannot be read back *)
Theorem C46_long_refuted : forall b v it, b_vars b = Some v -> 1 <= v -> v < max_var -> (forall r c, In (r, c) it -> c <= int_max) -> int_max < lenN (written it) * (2 * v) ->
  exists s, WriteFile b it = Ok s /\ lenN s = lenN (written it) * (2 * v) /\ forall b0 b', ReadFile b0 (Some s) <> Ok b'.
Proof. exact long_written. Qed.
Print Assumptions C46_long_refuted.
(** two variables and a record counted 2147483647 times *)
Example C46_long_nonvacuous : let it := [(2, int_max)] in (forall r c, In (r, c) it -> c <= int_max) /\ int_max < lenN (written it) * (2 * 2) /\ delimiter_ok comma = true.
Proof.
  cbv zeta. split; [intros r c [E|[]]; injection E as <- <-; apply N.le_refl|]. split; [|reflexivity].
  unfold written, lenN. cbn [flat_map fst snd]. rewrite app_nil_r, repeat_length, N2Nat.id. reflexivity.
Qed.
