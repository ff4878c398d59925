(** Concrete data sets. *)
From Coq Require Import Ascii String Reals Lra Permutation.
From Verif Require Import Base Text Csv CsvProofs CsvExamples Data DataProofs.
Local Open Scope N_scope.

(** 1,0 LF 1,0 LF 0,7 *)
Definition data_ex : text := str "1,0" ++ [nl] ++ str "1,0" ++ [nl] ++ str " 0,7".
Definition data_rows : list (list text) := [[str "1"; str "0"]; [str "1"; str "0"]; [str " 0"; str "7"]].
Definition data_bits : list (list bool) := [[true; false]; [true; false]; [false; true]].
Lemma raw_field f : forallb (fun c => negb (Ascii.eqb c comma || Ascii.eqb c nl || Ascii.eqb c quote || Ascii.eqb c cr || Ascii.eqb c nul)) f = true -> enc_field comma f f.
Proof. intros H. apply ef_raw, raw_dec, H. Qed.
Lemma data_ex_enc : enc_file comma data_rows data_ex.
Proof.
  apply (efl_cons comma _ (str "1,0") [] _ (str "1,0" ++ [nl] ++ str " 0,7")).
  { apply (er_cons comma (str "1") (str "1") _ (str "0")); [apply raw_field; reflexivity|]. apply er_one, raw_field. reflexivity. }
  { constructor. }
  apply (efl_cons comma _ (str "1,0") [] _ (str " 0,7")).
  { apply (er_cons comma (str "1") (str "1") _ (str "0")); [apply raw_field; reflexivity|]. apply er_one, raw_field. reflexivity. }
  { constructor. }
  apply (efl_last comma _ (str " 0,7") []); [|discriminate|constructor].
  apply (er_cons comma (str " 0") (str " 0") _ (str "7")); [apply raw_field; reflexivity|]. apply er_one, raw_field. reflexivity.
Qed.
Lemma data_ex_bits : Forall2 (Forall2 field_value) data_rows data_bits.
Proof.
  assert (field_value (str "1") true) as H1 by (eexists; split; reflexivity). assert (field_value (str "0") false) as H0 by (eexists; split; reflexivity).
  assert (field_value (str " 0") false) as H2 by (eexists; split; reflexivity). assert (field_value (str "7") true) as H3 by (eexists; split; reflexivity).
  unfold data_rows, data_bits.
  apply Forall2_cons; [|apply Forall2_cons; [|apply Forall2_cons; [|apply Forall2_nil]]]; apply Forall2_cons; auto.
Qed.
(** {1}, {1}, {2} over two variables *)
Definition data_three : bdata := {| b_map := [(2, 2); (4, 1)]; b_vars := Some 2; b_size := Some 3 |}.
Lemma data_three_sound : sound data_three.
Proof.
  split; simpl.
  - constructor; [simpl; intuition discriminate|]. constructor; [simpl; auto|constructor].
  - intros k [<-|[<-|[]]]; reflexivity.
Qed.
Lemma within_2 : within 2 2.
Proof. intros k H. destruct (N.eq_dec k 1) as [->|NE]; [lia|]. change 2 with (2 ^ 1) in H; rewrite (N.pow2_bits_false 1 k) in H by auto. discriminate. Qed.
Lemma within_4 : within 2 4.
Proof. intros k H. destruct (N.eq_dec k 2) as [->|NE]; [lia|]. change 4 with (2 ^ 2) in H; rewrite (N.pow2_bits_false 2 k) in H by auto. discriminate. Qed.
Lemma data_three_within : forall r, In r (keys (b_map data_three)) -> within 2 r.
Proof. simpl. intros r [<-|[<-|[]]]; [exact within_2|exact within_4]. Qed.
Lemma data_three_counts : forall r, lookup r (b_map data_three) <= int_max.
Proof. intros r. eapply N.le_trans; [apply lookup_total|]. vm_compute. discriminate. Qed.
(** {"data":[[1],[3],"x",[1,2],[2,null]], "variable_size":2} *)
Definition json_ex : list (text * json) :=
  [(str "data", JArr [JArr [JNum 1]; JArr [JNum 3]; JStr (str "x"); JArr [JNum 1; JNum 2]; JArr [JNum 2; JNull]]); (str "variable_size", JNum 2)].
Lemma json_ex_exs : exs 2 [JArr [JNum 1]; JArr [JNum 3]; JStr (str "x"); JArr [JNum 1; JNum 2]; JArr [JNum 2; JNull]] [2; 6].
Proof.
  apply (exs_legal 2 _ [1%Z]); [split; [reflexivity|repeat constructor; lia]| |].
  { apply (record_set_all [1%Z]). repeat constructor; lia. }
  apply exs_illegal. { exists [], (JNum 3), []. split; [reflexivity|]. split; [constructor|simpl; lia]. }
  apply exs_illegal; [exact I|].
  apply (exs_legal 2 _ [1%Z; 2%Z]); [split; [reflexivity|repeat constructor; lia]| |].
  { apply (record_set_all [1%Z; 2%Z]). repeat constructor; lia. }
  apply exs_illegal; [|constructor]. exists [2%Z], JNull, []. split; [reflexivity|]. split; [repeat constructor; lia|exact I].
Qed.
(** {"data":[[0]], "variable_size":2} and {"data":[[-1]], "variable_size":2} *)
Definition json_zero : list (text * json) := [(str "data", JArr [JArr [JNum 0]]); (str "variable_size", JNum 2)].
Definition json_minus : list (text * json) := [(str "data", JArr [JArr [JNum (-1)]]); (str "variable_size", JNum 2)].
