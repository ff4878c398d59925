(** Data files cut off at any byte (C78). *)
From Coq Require Import Ascii String Permutation.
From Verif Require Import Base Text Csv CsvProofs Data DataProofs.
Local Open Scope N_scope.

Fixpoint join (bs : list bool) : text :=
  match bs with [] => [] | [b] => [show_bit b] | b :: bs' => show_bit b :: comma :: join bs' end.
Lemma join_more b c bs : join (b :: c :: bs) = show_bit b :: comma :: join (c :: bs). Proof. reflexivity. Qed.
Lemma join_removelast bs : removelast (flat_map (fun b => [show_bit b; comma]) bs) = join bs.
Proof.
  induction bs as [|b bs IH]; [reflexivity|]. destruct bs as [|c bs]; [reflexivity|].
  rewrite join_more, <- IH. reflexivity.
Qed.
Lemma join_length bs : bs <> [] -> (length (join bs) + 1 = 2 * length bs)%nat.
Proof.
  induction bs as [|b bs IH]; [congruence|]. intros _. destruct bs as [|c bs]; [reflexivity|]. rewrite join_more. cbn [length].
  specialize (IH ltac:(discriminate)). cbn [length] in IH. lia.
Qed.
Lemma join_nil bs : join bs = [] -> bs = [].
Proof. destruct bs as [|b [|c bs]]; auto; discriminate. Qed.
(** The first 2j - 1 characters are the first j fields, the first 2j end in a comma. *)
Lemma join_odd j : forall bs, (S j <= length bs)%nat -> firstn (2 * j + 1) (join bs) = join (firstn (S j) bs).
Proof.
  induction j as [|j IH]; intros bs H.
  - destruct bs as [|b [|c bs]]; [simpl in H; lia|reflexivity|reflexivity].
  - destruct bs as [|b [|c bs]]; [simpl in H; lia|simpl in H; lia|]. rewrite join_more. replace (2 * S j + 1)%nat with (S (S (2 * j + 1))) by lia. cbn [firstn].
    specialize (IH (c :: bs) ltac:(simpl in *; lia)). replace (2 * j + 1)%nat with (S (2 * j)) in IH |- * by lia. rewrite IH. reflexivity.
Qed.
Lemma join_even j : forall bs, (1 <= j)%nat -> (j < length bs)%nat -> firstn (2 * j) (join bs) = join (firstn j bs) ++ [comma].
Proof.
  induction j as [|j IH]; intros bs J H; [lia|]. destruct bs as [|b [|c bs]]; [simpl in H; lia|simpl in H; lia|]. rewrite join_more. replace (2 * S j)%nat with (S (S (2 * j))) by lia.
  cbn [firstn]. destruct j as [|j]; [reflexivity|]. rewrite IH by (simpl in *; lia). reflexivity.
Qed.
Lemma join_enc bs : bs <> [] -> enc_row comma (bit_row bs) (join bs).
Proof. intros H. rewrite <- join_removelast. apply bit_row_enc; auto. Qed.
Lemma join_comma_enc bs : bs <> [] -> enc_row comma (bit_row bs ++ [[]]) (join bs ++ [comma]).
Proof.
  assert (enc_row comma [[]] []) as E0 by (apply er_one, ef_raw; constructor).
  induction bs as [|b bs IH]; [congruence|]. intros _. destruct bs as [|c bs].
  - apply (er_cons comma [show_bit b] [show_bit b] [[]] []); auto. apply bit_field.
  - rewrite join_more. change ((show_bit b :: comma :: join (c :: bs)) ++ [comma]) with ([show_bit b] ++ comma :: (join (c :: bs) ++ [comma])).
    apply (er_cons comma [show_bit b]); [apply bit_field|]. apply IH. discriminate.
Qed.

Definition file_of (bss : list (list bool)) : text := concat (map (fun bs => join bs ++ [nl]) bss).
Lemma file_of_lines bss : Forall (fun bs => bs <> []) bss -> enc_lines comma (map bit_row bss) (file_of bss).
Proof.
  induction 1 as [|bs bss H F IH]; [constructor|]. unfold file_of. cbn [map concat]. rewrite <- app_assoc. change ([nl] ++ concat (map (fun bs => join bs ++ [nl]) bss)) with ([] ++ nl :: file_of bss).
  constructor; auto; [apply join_enc; auto|constructor].
Qed.
Lemma enc_lines_last d rs s row t : enc_lines d rs s -> enc_row d row t -> t <> [] -> enc_file d (rs ++ [row]) (s ++ t).
Proof.
  intros EL ER NE. induction EL as [|row' t' w rs u ER' W EL IH]; cbn [app].
  - replace t with (t ++ []) by apply app_nil_r. apply efl_last; auto. constructor.
  - rewrite <- !app_assoc. cbn [app]. constructor; auto.
Qed.
Lemma file_cut V bss : Forall (fun bs => length bs = V) bss -> (0 < V)%nat -> forall k x bs, nth_error bss k = Some bs -> (x < 2 * V)%nat ->
  firstn (2 * V * k + x) (file_of bss) = file_of (firstn k bss) ++ firstn x (join bs).
Proof.
  intros F HV. induction F as [|b bss H F IH]; intros k x bs Hk Hx; [destruct k; discriminate|].
  assert (b <> []) as NB by (intros ->; simpl in H; lia). pose proof (join_length b NB) as JL. unfold file_of. cbn [map concat].
  destruct k as [|k].
  - injection Hk as ->. cbn [firstn map concat app]. rewrite Nat.mul_0_r, Nat.add_0_l. rewrite <- app_assoc, firstn_app. replace (x - length (join bs))%nat with 0%nat by lia. apply app_nil_r.
  - cbn [firstn map concat]. replace (2 * V * S k + x)%nat with (length (join b ++ [nl]) + (2 * V * k + x))%nat by (rewrite app_length; simpl; lia).
    rewrite firstn_app_2. rewrite <- (app_assoc (join b ++ [nl])). f_equal. apply IH; auto.
Qed.

(** The records in the order in which they are written *)
Definition written (it : list (N * N)) : list N := flat_map (fun rc => repeat (fst rc) (N.to_nat (snd rc))) it.
Lemma write_file_of v it : 1 <= v -> v < max_var -> (forall r c, In (r, c) it -> c <= int_max) ->
  write_records (Some v) it = Ok (file_of (map (fun r => bits_from r 1 (N.to_nat v)) (written it))).
Proof.
  intros V1 V2. induction it as [|[r c] it IH]; intros HC; [reflexivity|].
  cbn [write_records]. rewrite IH by (intros r' c' H; apply (HC r'); right; auto).
  unfold written. cbn [flat_map fst snd]. fold (written it). unfold file_of. rewrite !map_app, concat_app, !map_repeat.
  destruct (N.eqb_spec c 0) as [->|NC]; [reflexivity|]. rewrite (proj2 (N.ltb_ge _ _)) by (apply (HC r); left; auto).
  cbn [getv bind]. unfold write_line. rewrite (proj2 (N.eqb_neq v 0)), (proj2 (N.leb_gt _ _)) by lia. rewrite join_removelast. reflexivity.
Qed.
(** The variables 1..j of a record *)
Definition low (j r : N) : N := N.land r (N.ones (j + 1)).
Lemma low_bit j r k : N.testbit (low j r) k = N.testbit r k && (k <=? j).
Proof.
  unfold low. rewrite N.land_spec. f_equal. destruct (N.leb_spec k j); [apply N.ones_spec_low; lia|apply N.ones_spec_high; lia].
Qed.
Lemma low_record v r j pad : within v r -> (j <= N.to_nat v)%nat -> Forall (eq false) pad ->
  record_of 0 (firstn j (bits_from r 1 (N.to_nat v)) ++ pad) = low (N.of_nat j) r.
Proof.
  intros W J FP. apply N.bits_inj. intros k. rewrite low_bit. destruct (N.eq_dec k 0) as [->|NK].
  - rewrite record_low by lia. destruct (N.testbit r 0) eqn:E; auto. apply W in E. lia.
  - replace k with (0 + 1 + N.of_nat (N.to_nat (k - 1))) at 1 by lia. rewrite record_bit.
    assert (length (firstn j (bits_from r 1 (N.to_nat v))) = j) as LF by (rewrite firstn_length, bits_from_len; lia).
    destruct (N.leb_spec k (N.of_nat j)) as [H|H].
    + rewrite app_nth1 by lia. rewrite <- (app_nth1 _ (skipn j (bits_from r 1 (N.to_nat v)))), firstn_skipn by lia. rewrite bits_from_nth.
      rewrite (proj2 (Nat.ltb_lt _ _)) by lia. rewrite andb_true_r. f_equal. lia.
    + rewrite app_nth2 by lia. rewrite andb_false_r. remember (N.to_nat (k - 1) - length (firstn j (bits_from r 1 (N.to_nat v))))%nat as i. clear - FP.
      revert i. induction FP as [|a pad <- F IH]; intros [|i]; simpl; auto.
Qed.
Lemma low_all v r : within v r -> low v r = r.
Proof.
  intros W. apply N.bits_inj. intros k. rewrite low_bit. destruct (N.testbit r k) eqn:E; auto. apply W in E. rewrite (proj2 (N.leb_le _ _)) by lia. reflexivity.
Qed.
(** [p] is read as the records [l] over [n] variables *)
Definition reads (p : text) (l : list N) (n : N) : Prop :=
  exists b', ReadFile new_data (Some p) = Ok b' /\ sound b' /\ (forall r, lookup r (b_map b') = occ r l) /\ b_size b' = Some (lenN l) /\
    b_vars b' = Some (match l with [] => 0 | _ => n end).
Lemma reads_rows p rows bss n : enc_file comma rows p -> Forall2 (Forall2 field_value) rows bss -> Forall (fun row => lenN row = n) rows -> 0 < n -> n < max_var -> lenN p + 3 <= big ->
  lenN rows < u64 -> reads p (records bss) n.
Proof.
  intros EF F FL P0 P1 B HL. destruct (read_file rows bss n p new_data EF F FL P0 P1 B sound_new HL) as (b' & R & SB & CB & ZB & VB & _).
  assert (lenN rows = lenN (records bss)) as LE by (unfold lenN, records; rewrite map_length; f_equal; clear - F; induction F; simpl; auto).
  exists b'. split; auto. split; auto. split; [exact CB|]. split; [rewrite ZB, LE; reflexivity|]. rewrite VB. destruct F; reflexivity.
Qed.

Theorem data_cut b v it k x r : b_vars b = Some v -> 1 <= v -> v < max_var -> (forall r c, In (r, c) it -> c <= int_max /\ within v r) ->
  lenN (written it) * (2 * v) + 3 <= big -> nth_error (written it) k = Some r -> (x < 2 * N.to_nat v)%nat ->
  exists s, WriteFile b it = Ok s /\ length s = (length (written it) * (2 * N.to_nat v))%nat /\
    let p := firstn (2 * N.to_nat v * k + x) s in
    (x = 0%nat -> reads p (firstn k (written it)) v) /\
    ((0 < x)%nat -> (x + 2 < 2 * N.to_nat v)%nat -> (0 < k)%nat -> ReadFile new_data (Some p) = Abort) /\
    ((0 < x)%nat -> (2 * N.to_nat v <= x + 2)%nat \/ k = 0%nat -> reads p (firstn k (written it) ++ [low (N.of_nat ((x + 1) / 2)) r]) (N.of_nat (x / 2 + 1))).
Proof.
  intros EV V1 V2 HC B Hk Hx. set (V := N.to_nat v) in *. set (bits := fun r => bits_from r 1 V). set (bss := map bits (written it)).
  exists (file_of bss). split; [unfold WriteFile; rewrite EV; apply write_file_of; auto; intros r0 c0 H; apply (HC r0 c0 H)|].
  assert (forall r, In r (written it) -> within v r) as WI.
  { intros r0 H. unfold written in H. apply in_flat_map in H as ([r1 c1] & H1 & H2). apply repeat_spec in H2. simpl in H2. subst r0. apply (HC r1 c1 H1). }
  assert (Forall (fun bs => length bs = V) bss) as FL. { apply Forall_forall. intros bs H. apply in_map_iff in H as (r0 & <- & _). apply bits_from_len. }
  assert (nth_error bss k = Some (bits r)) as Hb by (apply map_nth_error; auto).
  assert (0 < V)%nat as V0 by (unfold V; lia).
  assert (forall l, Forall (fun bs => length bs = V) l -> length (file_of l) = (length l * (2 * V))%nat) as LF.
  { induction 1 as [|bs l H F IH]; [reflexivity|]. unfold file_of in *. cbn [map concat length]. rewrite !app_length, IH. cbn [length].
    assert (bs <> []) as NB by (intros ->; simpl in H; lia). pose proof (join_length bs NB). lia. }
  assert (length bss = length (written it)) as LB by apply map_length.
  split; [rewrite LF by auto; rewrite LB; reflexivity|]. cbv zeta. rewrite (file_cut V bss FL V0 k x (bits r) Hb Hx).
  assert (length (bits r) = V) as LR by apply bits_from_len.
  assert (k < length (written it))%nat as KL by (apply nth_error_Some; congruence).
  assert (Forall (fun bs => length bs = V) (firstn k bss)) as FK. { apply Forall_forall. intros bs H. rewrite Forall_forall in FL. apply FL. rewrite <- (firstn_skipn k bss). apply in_app_iff; auto. }
  assert (Forall (fun bs => bs <> []) (firstn k bss)) as FN. { eapply Forall_impl; [|exact FK]. intros bs H ->. simpl in H. lia. }
  pose proof (file_of_lines _ FN) as EL.
  assert (length (firstn k bss) = k) as LK by (rewrite firstn_length; lia).
  assert (lenN (file_of (firstn k bss) ++ firstn x (join (bits r))) + 3 <= big) as BL.
  { rewrite lenN_app. unfold lenN in *. rewrite LF, LK by auto. rewrite firstn_length. assert (bits r <> []) as NB by (intros E; rewrite E in LR; simpl in LR; lia).
    pose proof (join_length _ NB). unfold V in *. nia. }
  assert (lenN (map bit_row (firstn k bss)) < u64) as HU by (unfold lenN; rewrite map_length, LK; unfold lenN, big, u64 in *; nia).
  assert (Forall2 (Forall2 field_value) (map bit_row (firstn k bss)) (firstn k bss)) as FV. { clear. induction (firstn k bss) as [|a l IH]; constructor; auto. apply bit_row_values. }
  assert (Forall (fun row => lenN row = v) (map bit_row (firstn k bss))) as FW.
  { apply Forall_map. eapply Forall_impl; [|exact FK]. intros bs H. unfold lenN, bit_row. rewrite map_length. cbn beta in H. rewrite H. unfold V. lia. }
  assert (records (firstn k bss) = firstn k (written it)) as RK.
  { unfold records, bss. rewrite <- firstn_map. f_equal. rewrite map_map. rewrite <- (map_id (written it)) at 2. apply map_ext_in. intros r0 H. apply record_bits; auto. }
  split; [|].
  { intros ->. cbn [firstn] in *. rewrite app_nil_r in *. rewrite <- RK. apply (reads_rows _ (map bit_row (firstn k bss))); auto; try lia. apply enc_lines_file; auto. }
  (* the last row *)
  assert ((0 < x)%nat -> exists row bs pad, enc_row comma row (firstn x (join (bits r))) /\ Forall2 field_value row bs /\ lenN row = N.of_nat (x / 2 + 1) /\
            bs = firstn ((x + 1) / 2) (bits r) ++ pad /\ Forall (eq false) pad) as ROW.
  { intros X0. destruct (Nat.Even_or_Odd x) as [[j ->]|[j ->]].
    - exists (bit_row (firstn j (bits r)) ++ [[]]), (firstn j (bits r) ++ [false]), [false]. rewrite join_even by lia.
      assert (firstn j (bits r) <> []) as NJ by (intros E; apply (f_equal (@length bool)) in E; rewrite firstn_length in E; simpl in E; lia).
      split; [apply join_comma_enc; auto|]. split; [apply Forall2_app; [apply bit_row_values|constructor; [|constructor]; exists 0%Z; split; reflexivity]|].
      replace ((2 * j + 1) / 2)%nat with j by (rewrite Nat.add_comm, Nat.mul_comm, Nat.div_add by lia; reflexivity).
      replace (2 * j / 2)%nat with j by (rewrite Nat.mul_comm, Nat.div_mul by lia; reflexivity).
      split; [unfold lenN, bit_row; rewrite app_length, map_length, firstn_length; simpl; lia|]. split; auto.
    - exists (bit_row (firstn (S j) (bits r))), (firstn (S j) (bits r)), []. rewrite join_odd by lia.
      assert (firstn (S j) (bits r) <> []) as NJ by (intros E; apply (f_equal (@length bool)) in E; rewrite firstn_length in E; cbn [length] in E; lia).
      split; [apply join_enc; auto|]. split; [apply bit_row_values|].
      replace ((2 * j + 1 + 1) / 2)%nat with (S j) by (replace (2 * j + 1 + 1)%nat with (S j * 2)%nat by lia; rewrite Nat.div_mul; lia).
      replace ((2 * j + 1) / 2)%nat with j by (rewrite Nat.add_comm, Nat.mul_comm, Nat.div_add by lia; reflexivity).
      split; [unfold lenN, bit_row; rewrite map_length, firstn_length; lia|]. split; [rewrite app_nil_r; reflexivity|constructor]. }
  assert ((0 < x)%nat -> firstn x (join (bits r)) <> []) as NX.
  { intros X0 E. apply (f_equal (@length ascii)) in E. rewrite firstn_length in E. assert (bits r <> []) as NB by (intros E'; rewrite E' in LR; simpl in LR; lia).
    pose proof (join_length _ NB). simpl in E. lia. }
  assert (x / 2 * 2 <= x)%nat as D1 by (pose proof (Nat.div_mod x 2 ltac:(lia)); lia).
  split.
  - intros X0 X1 K0. destruct (ROW X0) as (row & bs & pad & ER & F & LR' & EB & FP).
    apply (read_ragged (map bit_row (firstn k bss)) row [] (firstn k bss) bs v); auto; try lia.
    + apply enc_lines_last; auto.
    + intros E. apply (f_equal (@length _)) in E. rewrite map_length, LK in E. simpl in E. lia.
  - intros X0 X1. destruct (ROW X0) as (row & bs & pad & ER & F & LR' & EB & FP).
    assert (low (N.of_nat ((x + 1) / 2)) r = record_of 0 bs) as ->.
    { rewrite EB. symmetry. apply low_record; auto. { apply WI. eapply nth_error_In; eauto. } pose proof (Nat.div_mod (x + 1) 2 ltac:(lia)). fold V. lia. }
    rewrite <- RK. change (records (firstn k bss) ++ [record_of 0 bs]) with (records (firstn k bss) ++ records [bs]). unfold records. rewrite <- map_app. fold (records (firstn k bss ++ [bs])).
    apply (reads_rows _ (map bit_row (firstn k bss) ++ [row])); auto; try lia.
    + apply enc_lines_last; auto.
    + apply Forall2_app; auto.
    + destruct X1 as [X1| ->].
      * apply Forall_app. split; [|constructor; auto]. eapply Forall_impl; [|exact FW]. intros a Ha. cbn beta in Ha. rewrite Ha.
        assert (x / 2 + 1 = V)%nat as -> by (pose proof (Nat.div_mod x 2 ltac:(lia)); pose proof (Nat.mod_upper_bound x 2 ltac:(lia)); lia). unfold V. lia.
      * constructor; [auto|constructor].
    + rewrite lenN_app. unfold lenN in *. rewrite map_length, LK. cbn [length]. unfold big, u64 in *. clear - B KL V1. nia.
Qed.
