(** Property theorems C47 (the CSV parser).  [rows fuel p]: calling CsvParser_getRow until it returns NULL; [new_parser (SFile s) d h]: a
    parser on a file with content s; [UB]: an access outside a buffer or an int overflow; [enc_file d rs s]: s is the rows rs as text, every
    field as it is or in quotes with its quotes doubled, lines ended by LF or CR LF; [big]: a thousand million characters. *)
From Coq Require Import Ascii String.
From Verif Require Import Base Text Csv CsvProofs CsvExamples.
Local Open Scope N_scope.

(** C47: every byte stream that does not end in a quote *)
Theorem C47_memory_safe_partial : forall d rest fuel, delimiter_ok d = true -> ~ open_end rest -> lenN rest + 2 <= big -> (length rest + 2 <= fuel)%nat ->
  exists rs p', rows fuel (new_parser (SFile rest) d false) = Ok (rs, p').
Proof. intros d rest fuel HD NO B HF. apply (rows_safe d HD fuel _ rest); auto. apply new_delim; auto. Qed.
Print Assumptions C47_memory_safe_partial.
Example C47_memory_safe_nonvacuous : delimiter_ok comma = true /\ ~ open_end csv_ex /\ lenN csv_ex + 2 <= big.
Proof.
  split; [reflexivity|]. split; [|vm_compute; discriminate]. intros (pre & w & E & W). destruct (rev w) as [|c l] eqn:ER.
  - apply (f_equal (@rev _)) in ER. rewrite rev_involutive in ER. subst w. apply (f_equal (@rev _)) in E. rewrite rev_app_distr in E. vm_compute in E. discriminate.
  - apply (f_equal (@rev _)) in E. rewrite rev_app_distr in E. change (rev (quote :: w)) with (rev w ++ [quote]) in E. rewrite ER in E. vm_compute in E. injection E as <- _.
    apply Forall_rev in W. rewrite ER in W. apply Forall_inv in W. discriminate.
Qed.
(** otherwise it may write before its buffer: any line and then a delimiter and an opening quote *)
Theorem C47_memory_safe_refuted : forall d row s w, delimiter_ok d = true -> enc_row d row s -> crs w -> lenN s + lenN w + 4 <= big -> forall fuel, fuel <> O ->
  rows fuel (new_parser (SFile (s ++ d :: quote :: w)) d false) = UB.
Proof. exact open_quote_ub. Qed.
Print Assumptions C47_memory_safe_refuted.
Example C47_memory_safe_refuted_witness : enc_row comma [str "1"] (str "1") /\ rows 9 (new_parser (SFile (str "1," ++ [quote])) comma false) = UB.
Proof. split; [exact one_row|reflexivity]. Qed.

(** the rows of a file are read as written *)
Theorem C47_rows : forall d rs s, delimiter_ok d = true -> enc_file d rs s -> lenN s + 3 <= big -> forall fuel, (length s + 2 <= fuel)%nat ->
  exists p', rows fuel (new_parser (SFile s) d false) = Ok (rs, p').
Proof. intros d rs s HD EF B fuel HF. apply (rows_file d HD rs s EF); auto. apply new_delim; auto. Qed.
Print Assumptions C47_rows.
Example C47_rows_nonvacuous : enc_file comma csv_rows csv_ex /\ (do (rs, p) <- rows 40 (new_parser (SFile csv_ex) comma false) ;; Ok rs) = Ok csv_rows.
Proof. split; [exact csv_ex_enc|exact csv_ex_read]. Qed.
(** with a header: the first row is the header, and is not among the rows *)
Theorem C47_header : forall d row rs s, delimiter_ok d = true -> enc_file d (row :: rs) s -> lenN s + 4 <= big -> forall fuel, (length s + 2 <= fuel)%nat ->
  exists p1, GetHeader (new_parser (SFile s) d true) = Ok (Some row, p1) /\ GetHeader p1 = Ok (Some row, p1) /\
    (exists p2, rows fuel p1 = Ok (rs, p2)) /\ (exists p2, rows fuel (new_parser (SFile s) d true) = Ok (rs, p2)).
Proof. intros d row rs s HD. exact (header_file d HD row rs s). Qed.
Print Assumptions C47_header.
Example C47_header_nonvacuous : (do (rs, p) <- rows 40 (new_parser (SFile csv_ex) comma true) ;; Ok rs) = Ok [[[]; str "e"]].
Proof. vm_compute. reflexivity. Qed.
(** every table of fields without CR and zero bytes can be written and is read back *)
Theorem C47_written : forall d rs, delimiter_ok d = true -> Forall (fun r => r <> [] /\ Forall (Forall quoted_char) r) rs -> lenN (csv_text d rs) + 3 <= big ->
  forall fuel, (length (csv_text d rs) + 2 <= fuel)%nat ->
  (exists p', rows fuel (new_parser (SFile (csv_text d rs)) d false) = Ok (rs, p')) /\ (exists p', rows fuel (new_parser (SString (csv_text d rs)) d false) = Ok (rs, p')).
Proof.
  intros d rs HD F B fuel HF. pose proof (csv_text_lines d rs F) as EL. split.
  - apply C47_rows; auto. apply enc_lines_file; auto.
  - apply (rows_string d HD); auto.
Qed.
Print Assumptions C47_written.
Example C47_written_nonvacuous : Forall (fun r => r <> [] /\ Forall (Forall quoted_char) r) csv_rows /\
  (do (rs, p) <- rows 60 (new_parser (SString (csv_text comma csv_rows)) comma false) ;; Ok rs) = Ok csv_rows.
Proof. split; [exact csv_rows_chars|vm_compute; reflexivity]. Qed.
(** a string whose last line is not ended: read past its end *)
Theorem C47_string_refuted : forall d rs s, delimiter_ok d = true -> enc_open d rs s -> lenN s + 3 <= big -> forall fuel, (length s + 2 <= fuel)%nat ->
  rows fuel (new_parser (SString s) d false) = UB.
Proof. intros d rs s HD. exact (rows_string_open d HD rs s). Qed.
Print Assumptions C47_string_refuted.
Example C47_string_refuted_witness : enc_open comma [[str "1"; str "0"]] open_string /\ rows 9 (new_parser (SString open_string) comma false) = UB.
Proof. split; [exact open_string_enc|reflexivity]. Qed.
(** no field has a CR or a zero byte, even if it was quoted *)
Theorem C47_cr_refuted : (forall fuel p rs p', rows fuel p = Ok (rs, p') -> Forall (Forall clean) rs) /\
  (do (rs, p) <- rows 9 (new_parser (SFile cr_field) comma false) ;; Ok rs) = Ok [[str "ab"]].
Proof. split; [exact rows_clean|reflexivity]. Qed.
Print Assumptions C47_cr_refuted.
