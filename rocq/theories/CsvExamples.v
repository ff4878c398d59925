(** Concrete CSV texts. *)
From Coq Require Import Ascii String.
From Verif Require Import Base Text Csv CsvProofs.
Local Open Scope N_scope.


Lemma comma_ok : delimiter_ok comma = true.
Proof. reflexivity. Qed.
(** a,"b ""c"", LF d" CR LF ,e *)
Definition csv_ex : text :=
  str "a," ++ [quote] ++ str "b " ++ [quote; quote] ++ str "c" ++ [quote; quote] ++ str "," ++ [nl] ++ str "d" ++ [quote; cr; nl] ++ str ",e".
Definition csv_rows : list (list text) := [[str "a"; str "b " ++ [quote] ++ str "c" ++ [quote] ++ str "," ++ [nl] ++ str "d"]; [[]; str "e"]].
Lemma raw_dec d f : forallb (fun c => negb (Ascii.eqb c d || Ascii.eqb c nl || Ascii.eqb c quote || Ascii.eqb c cr || Ascii.eqb c nul)) f = true -> Forall (raw_char d) f.
Proof.
  rewrite forallb_forall. intros H. apply Forall_forall. intros c Hc. specialize (H c Hc). rewrite negb_true_iff, !orb_false_iff in H.
  destruct H as [[[[H1 H2] H3] H4] H5]. repeat split; apply Ascii.eqb_neq; auto.
Qed.
Lemma quoted_dec f : forallb (fun c => negb (Ascii.eqb c cr || Ascii.eqb c nul)) f = true -> Forall quoted_char f.
Proof.
  rewrite forallb_forall. intros H. apply Forall_forall. intros c Hc. specialize (H c Hc). rewrite negb_true_iff, !orb_false_iff in H.
  destruct H as [H1 H2]. split; apply Ascii.eqb_neq; auto.
Qed.
Lemma csv_ex_enc : enc_file comma csv_rows csv_ex.
Proof.
  apply (efl_cons comma _ (str "a" ++ comma :: (quote :: dbl (str "b " ++ [quote] ++ str "c" ++ [quote] ++ str "," ++ [nl] ++ str "d") ++ [quote])) [cr] [[[]; str "e"]] (str ",e")).
  - apply er_cons; [apply ef_raw, raw_dec; reflexivity|]. apply er_one. apply ef_quoted, quoted_dec. reflexivity.
  - constructor; [reflexivity|constructor].
  - apply (efl_last comma _ (str ",e") []); [|discriminate|constructor]. apply (er_cons comma [] [] _ (str "e")); [apply ef_raw, raw_dec; reflexivity|].
    apply er_one, ef_raw, raw_dec. reflexivity.
Qed.
Lemma csv_ex_read : (do (rs, p) <- rows 40 (new_parser (SFile csv_ex) comma false) ;; Ok rs) = Ok csv_rows.
Proof. vm_compute. reflexivity. Qed.
(** 1,0 without a newline *)
Definition open_string : text := str "1,0".
Lemma open_string_enc : enc_open comma [[str "1"; str "0"]] open_string.
Proof.
  apply (eo_last comma _ open_string []); [|discriminate|constructor]. apply (er_cons comma (str "1") (str "1") _ (str "0")); [apply ef_raw, raw_dec; reflexivity|].
  apply er_one, ef_raw, raw_dec. reflexivity.
Qed.
Lemma one_row : enc_row comma [str "1"] (str "1").
Proof. apply er_one, ef_raw, raw_dec. reflexivity. Qed.
(** "a CR b" *)
Definition cr_field : text := [quote] ++ str "a" ++ [cr] ++ str "b" ++ [quote; nl].
Lemma csv_rows_chars : Forall (fun r => r <> [] /\ Forall (Forall quoted_char) r) csv_rows.
Proof.
  unfold csv_rows. apply Forall_cons; [|apply Forall_cons; [|apply Forall_nil]]; (split; [discriminate|]).
  all: apply Forall_cons; [apply quoted_dec; reflexivity|]; apply Forall_cons; [apply quoted_dec; reflexivity|apply Forall_nil].
Qed.
