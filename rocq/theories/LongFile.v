(** Files with more than 2147483647 bytes: the position of the CSV parser is an int (C46, C47). *)
From Coq Require Import Ascii String.
From Verif Require Import Base Text Csv CsvProofs Data DataProofs DataCut.
Local Open Scope N_scope.

Lemma lenN_cons' {A} (a : A) l : lenN (a :: l) = lenN l + 1.
Proof. unfold lenN. cbn [length]. lia. Qed.
Lemma tick_ok it it' : tick it = Ok it' -> it' = it + 1 /\ it' <= int_max.
Proof. unfold tick. destruct (N.ltb_spec it int_max); [|discriminate]. intros E. injection E as <-. split; lia. Qed.
Lemma row_loop_iter d rest : forall st it o rest' it', row_loop d st rest it = Ok (o, rest', it') ->
  it + lenN rest <= it' + lenN rest' /\ it' <= int_max /\ (o = None -> rest' = []).
Proof.
  induction rest as [|c rest IH]; intros st it o rest' it' E; cbn [row_loop] in E; destruct (tick it) as [it1| | |] eqn:T; try discriminate; cbn [bind] in E;
    apply tick_ok in T as [-> L].
  - assert (rest' = [] /\ it' = it + 1) as [-> ->].
    { destruct (r_buf st), (r_fields st); try (injection E as _ <- <-; auto);
        destruct (row_step d true st nl) as [[?|?]| | |]; cbn [bind] in E; try discriminate; injection E as _ <- <-; auto. }
    split; [lia|]. split; auto.
  - destruct (row_step d false st c) as [[st'|row]| | |]; cbn [bind] in E; try discriminate.
    + apply IH in E as (A & B & C). rewrite lenN_cons'. split; [lia|]. split; auto.
    + injection E as <- <- <-. rewrite lenN_cons'. split; [lia|]. split; [auto|discriminate].
Qed.
Lemma rows_iter fuel : forall p d rest rs p', p_delim p = Some d -> p_src p = SFile rest -> p_has_header p = false -> rows fuel p = Ok (rs, p') -> p_iter p + lenN rest <= int_max.
Proof.
  induction fuel as [|f IH]; intros p d rest rs p' HD HS HH E; [discriminate|]. cbn [rows] in E. unfold GetRow in E. rewrite HH in E. unfold get_row in E. rewrite HD, HS in E.
  destruct (row_loop d row_start rest (p_iter p)) as [[[o rest'] it']| | |] eqn:R; try discriminate. cbn [bind fst snd] in E.
  apply row_loop_iter in R as (A & B & C). destruct o as [row|].
  - destruct (rows f _) as [[rs' p2]| | |] eqn:R2; try discriminate. eapply IH in R2; [|reflexivity|reflexivity|exact HH]. cbn [p_iter] in R2. lia.
  - rewrite (C eq_refl) in A. change (lenN (@nil ascii)) with 0 in A. lia.
Qed.
Theorem long_file d content fuel x : delimiter_ok d = true -> int_max < lenN content -> rows fuel (new_parser (SFile content) d false) <> Ok x.
Proof.
  intros HD HL E. destruct x as [rs p']. eapply rows_iter in E; [|unfold new_parser; cbn [p_delim]; rewrite HD; reflexivity|reflexivity|reflexivity]. cbn [p_iter new_parser] in E. lia.
Qed.

Lemma read_rows_iter fuel : forall p d rest b b', p_delim p = Some d -> p_src p = SFile rest -> p_has_header p = false -> read_rows fuel p b = Ok b' -> p_iter p + lenN rest <= int_max.
Proof.
  induction fuel as [|f IH]; intros p d rest b b' HD HS HH E; [discriminate|]. cbn [read_rows] in E. unfold GetRow in E. rewrite HH in E. unfold get_row in E. rewrite HD, HS in E.
  destruct (row_loop d row_start rest (p_iter p)) as [[[o rest'] it']| | |] eqn:R; try discriminate. cbn [bind fst snd] in E.
  apply row_loop_iter in R as (A & B & C). destruct o as [row|].
  - destruct (read_row b row) as [b1| | |]; try discriminate. cbn [bind] in E. eapply IH in E; [|reflexivity|reflexivity|exact HH]. cbn [p_iter] in E. lia.
  - rewrite (C eq_refl) in A. change (lenN (@nil ascii)) with 0 in A. lia.
Qed.
Theorem long_data content b b' : int_max < lenN content -> ReadFile b (Some content) <> Ok b'.
Proof.
  intros HL E. unfold ReadFile in E. eapply read_rows_iter in E; [|reflexivity|reflexivity|reflexivity]. cbn [p_iter new_parser] in E. lia.
Qed.
Theorem long_written b v it : b_vars b = Some v -> 1 <= v -> v < max_var -> (forall r c, In (r, c) it -> c <= int_max) -> int_max < lenN (written it) * (2 * v) ->
  exists s, WriteFile b it = Ok s /\ lenN s = lenN (written it) * (2 * v) /\ forall b0 b', ReadFile b0 (Some s) <> Ok b'.
Proof.
  intros EV V1 V2 HC HL. exists (file_of (map (fun r => bits_from r 1 (N.to_nat v)) (written it))).
  split; [unfold WriteFile; rewrite EV; apply write_file_of; auto|].
  assert (forall l, length (file_of (map (fun r => bits_from r 1 (N.to_nat v)) l)) = (length l * (2 * N.to_nat v))%nat) as LF.
  { induction l as [|r l IH]; [reflexivity|]. unfold file_of in *. cbn [map concat length]. rewrite !app_length, IH. cbn [length].
    assert (length (bits_from r 1 (N.to_nat v)) = N.to_nat v) as LB by apply bits_from_len.
    assert (bits_from r 1 (N.to_nat v) <> []) as NB by (intros Q; rewrite Q in LB; simpl in LB; lia). pose proof (join_length _ NB). lia. }
  assert (lenN (file_of (map (fun r => bits_from r 1 (N.to_nat v)) (written it))) = lenN (written it) * (2 * v)) as LN by (unfold lenN; rewrite LF; lia).
  split; auto. intros b0 b'. apply long_data. rewrite LN. exact HL.
Qed.
