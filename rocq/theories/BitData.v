(** Data files with more columns than a bitset has bits (binary_data.cpp 14-63). *)
From Verif Require Import Base Text Csv CsvProofs Data DataProofs.
Local Open Scope N_scope.

(** the columns of the ones of a row, counted from 1 *)
Definition ones_fit (i : N) (bs : list bool) : Prop := forall j, nth j bs false = true -> i + 1 + N.of_nat j < max_var.
Definition ones_beyond (i : N) (bs : list bool) : Prop := exists j, nth j bs false = true /\ max_var <= i + 1 + N.of_nat j.
Lemma fit_tl i b bs : ones_fit i (b :: bs) -> ones_fit (i + 1) bs.
Proof. intros H j Hj. specialize (H (S j) Hj). lia. Qed.
Lemma row_bits_wide fs bs : Forall2 field_value fs bs -> forall i r, ones_fit i bs -> row_bits i fs r = Ok (N.lor r (record_of i bs)).
Proof.
  induction 1 as [|f b fs bs (z & E & ->) F IH]; intros i r B; cbn [row_bits record_of].
  - rewrite N.lor_0_r. reflexivity.
  - pose proof (fit_tl _ _ _ B) as B'. rewrite E. cbn [bind]. destruct (Z.eqb z 0) eqn:EZ; cbn [negb]; [apply IH; auto|].
    assert (i + 1 < max_var) as Q by (specialize (B 0%nat); simpl in B; rewrite ?EZ in B; specialize (B eq_refl); lia).
    rewrite (proj2 (N.ltb_lt _ _) Q). rewrite IH by auto. rewrite !setbit_lor. f_equal. rewrite <- !N.lor_assoc. f_equal. apply N.lor_comm.
Qed.
Lemma row_bits_beyond fs bs : Forall2 field_value fs bs -> forall i r, ones_beyond i bs -> row_bits i fs r = Abort.
Proof.
  induction 1 as [|f b fs bs (z & E & ->) F IH]; intros i r (j & Hj & B); cbn [row_bits].
  - destruct j; discriminate.
  - rewrite E. cbn [bind]. destruct j as [|j]; cbn [nth] in Hj.
    + destruct (Z.eqb z 0); [discriminate|]. rewrite (proj2 (N.ltb_ge _ _)) by lia. reflexivity.
    + assert (ones_beyond (i + 1) bs) as Q by (exists j; split; auto; lia). destruct (Z.eqb z 0); [apply IH; auto|]. destruct (N.ltb (i + 1) max_var); auto.
Qed.
Lemma read_rows_wide rs bss n : Forall2 (Forall2 field_value) rs bss -> Forall (fun row => lenN row = n) rs -> 0 < n -> n < u32 -> Forall (ones_fit 0) bss ->
  forall m v c, (v = 0 \/ v = n) -> c + lenN rs < u64 ->
  foldM read_row rs {| b_map := m; b_vars := Some v; b_size := Some c |} =
  Ok {| b_map := fold_left (fun m r => incr r m) (records bss) m; b_vars := Some (match rs with [] => v | _ => n end); b_size := Some (c + lenN rs) |}.
Proof.
  intros F. induction F as [|row bs rs bss F1 F2 IH]; intros FL P0 P1 FO m v c HV HC.
  - cbn [foldM records map fold_left]. change (lenN (@nil (list text))) with 0. rewrite N.add_0_r. reflexivity.
  - inversion FL as [|? ? L1 L2]; subst. inversion FO as [|? ? O1 O2]; subst. rewrite lenN_cons in *. cbn [foldM]. unfold read_row at 1. rewrite (row_bits_wide row bs F1) by auto. cbn [bind getv b_size b_vars b_map].
    rewrite N.lor_0_l. rewrite (N.mod_small (lenN row)) by lia.
    assert ((N.eqb v 0 || N.eqb v (lenN row))%bool = true) as -> by (destruct HV as [->| ->]; [reflexivity|rewrite N.eqb_refl; apply orb_true_r]).
    cbn [assert bind]. rewrite (N.mod_small (c + 1)) by lia. rewrite IH; auto; [|destruct (N.eqb_spec v 0); auto; destruct HV; auto; congruence|lia].
    unfold records. cbn [map fold_left]. f_equal. f_equal; [|f_equal; lia]. f_equal. destruct (N.eqb_spec v 0); destruct rs; auto; destruct HV; congruence.
Qed.
(** a file of any width is read if the ones are in columns below MAX_VAR *)
Theorem read_wide rs bss n s b : enc_file comma rs s -> Forall2 (Forall2 field_value) rs bss -> Forall (fun row => lenN row = n) rs -> 0 < n -> n < u32 -> Forall (ones_fit 0) bss -> lenN s + 3 <= big ->
  sound b -> total (b_map b) + lenN rs < u64 ->
  exists b', ReadFile b (Some s) = Ok b' /\ sound b' /\ (forall k, lookup k (b_map b') = lookup k (b_map b) + occ k (records bss)) /\
    b_size b' = Some (lenN rs) /\ b_vars b' = Some (match rs with [] => 0 | _ => n end) /\ total (b_map b') = total (b_map b) + lenN rs.
Proof.
  intros EF F FL P0 P1 FO B [S1 S2] T. unfold ReadFile.
  destruct (rows_file comma eq_refl rs s EF (length s + 2) (new_parser (SFile s) comma false)) as (p' & R); auto.
  all: try (cbn [new_parser p_iter]; lia).
  rewrite (read_rows_rows _ _ _ _ _ R). rewrite (read_rows_wide rs bss n F FL P0 P1 FO) by (auto; lia).
  assert (lenN (records bss) = lenN rs) as LR. { unfold records, lenN. rewrite map_length. clear -F. induction F; simpl; lia. }
  destruct (incr_many (records bss) (b_map b) S1 S2) as (I1 & I2 & I3 & I4); [rewrite LR; lia|].
  eexists. split; [reflexivity|]. split; [split; auto|]. split; [auto|]. split; [reflexivity|]. split; auto. cbn [b_map]. rewrite I4, LR. reflexivity.
Qed.
(** otherwise the program stops at the first record with such a one *)
Theorem read_beyond rs1 row rs2 bss bs n s b : enc_file comma (rs1 ++ row :: rs2) s -> Forall2 (Forall2 field_value) rs1 bss -> Forall2 field_value row bs ->
  Forall (fun r => lenN r = n) rs1 -> 0 < n -> n < u32 -> Forall (ones_fit 0) bss -> ones_beyond 0 bs -> lenN s + 3 <= big -> lenN rs1 < u64 ->
  ReadFile b (Some s) = Abort.
Proof.
  intros EF F FR FL P0 P1 FO OB B T. unfold ReadFile.
  destruct (rows_file comma eq_refl _ s EF (length s + 2) (new_parser (SFile s) comma false)) as (p' & R); auto.
  all: try (cbn [new_parser p_iter]; lia).
  rewrite (read_rows_rows _ _ _ _ _ R), foldM_app. rewrite (read_rows_wide rs1 bss n F FL P0 P1 FO) by (auto; lia). cbn [bind foldM].
  unfold read_row at 1. rewrite (row_bits_beyond row bs FR) by auto. reflexivity.
Qed.
(** and a data set of that many variables cannot be written *)
Theorem write_beyond b v it r c it' : b_vars b = Some v -> max_var <= v -> it = (r, c) :: it' -> 1 <= c -> c <= int_max -> WriteFile b it = UB.
Proof.
  intros V M -> C1 C2. unfold WriteFile. cbn [write_records]. rewrite (proj2 (N.eqb_neq c 0)) by lia. rewrite (proj2 (N.ltb_ge int_max c)) by lia. rewrite V. cbn [getv bind].
  unfold write_line. rewrite (proj2 (N.leb_le _ _) M), orb_true_r. reflexivity.
Qed.

(** ** A line of 65536 columns *)
Definition wide (b : bool) : list bool := repeat false (N.to_nat 65535) ++ [b].
Definition wide_text (b : bool) : text := removelast (flat_map (fun b => [show_bit b; comma]) (wide b)).
Lemma wide_len b : lenN (wide b) = max_var.
Proof. unfold lenN, wide, max_var. rewrite app_length, repeat_length. cbn [length]. lia. Qed.
Lemma flat_len (bs : list bool) : length (flat_map (fun b => [show_bit b; comma]) bs) = (2 * length bs)%nat.
Proof. induction bs as [|b bs IH]; [reflexivity|]. cbn [flat_map app length]. rewrite IH. lia. Qed.
Lemma removelast_len {A} (l : list A) : (length (removelast l) <= length l)%nat.
Proof. induction l as [|a l IH]; [auto|]. cbn [removelast]. destruct l; cbn [length] in *; lia. Qed.
Lemma wide_short b : lenN (wide_text b) + 3 <= big.
Proof.
  pose proof (removelast_len (flat_map (fun b => [show_bit b; comma]) (wide b))) as H. rewrite flat_len in H. fold (wide_text b) in H.
  pose proof (wide_len b) as W. unfold lenN, max_var, big in *. lia.
Qed.
Lemma wide_enc b : enc_file comma [bit_row (wide b)] (wide_text b).
Proof.
  rewrite <- (app_nil_r (wide_text b)). apply efl_last; [| |constructor].
  - apply bit_row_enc. unfold wide. intros H. apply (f_equal (@length _)) in H. rewrite app_length in H. cbn [length] in H. lia.
  - unfold wide_text, wide. intros H. pose proof (removelast_len (flat_map (fun b => [show_bit b; comma]) (repeat false (N.to_nat 65535) ++ [b]))) as L. apply (f_equal (@length _)) in H.
    rewrite flat_map_app in H. cbn [flat_map app] in H. rewrite removelast_app in H by discriminate. rewrite app_length in H. cbn [removelast length] in H. lia.
Qed.
Lemma nth_wide b : nth (N.to_nat 65535) (wide b) false = b.
Proof. unfold wide. rewrite app_nth2; rewrite repeat_length; [|lia]. rewrite Nat.sub_diag. reflexivity. Qed.
Lemma wide_true : ones_beyond 0 (wide true).
Proof. exists (N.to_nat 65535). split; [apply nth_wide|]. unfold max_var. lia. Qed.
Lemma wide_false : ones_fit 0 (wide false).
Proof.
  intros j Hj. exfalso. destruct (Nat.lt_ge_cases j (N.to_nat 65535)) as [H|H]; unfold wide in Hj.
  - rewrite app_nth1 in Hj by (rewrite repeat_length; auto). rewrite nth_repeat in Hj. discriminate.
  - rewrite app_nth2 in Hj by (rewrite repeat_length; auto). destruct (j - _)%nat as [|[|k]]; discriminate.
Qed.
