(** Proofs about data sets. *)
From Coq Require Import Ascii String Reals Lra Permutation.
From Verif Require Import Base Text Csv CsvProofs Data.
Local Open Scope N_scope.

(** ** Counting *)
Definition keys (l : list (N * N)) : list N := map fst l.
Definition total (l : list (N * N)) : N := fold_right (fun rc n => snd rc + n) 0 l.
Fixpoint occ (r : N) (l : list N) : N := match l with [] => 0 | a :: l' => (if N.eqb a r then 1 else 0) + occ r l' end.
Lemma occ_app r l l' : occ r (l ++ l') = occ r l + occ r l'.
Proof. induction l as [|a l IH]; simpl; [reflexivity|]. rewrite IH. lia. Qed.
Lemma occ_le r l : occ r l <= lenN l.
Proof. induction l as [|a l IH]; [reflexivity|]. rewrite lenN_cons. simpl. destruct (N.eqb a r); lia. Qed.
Lemma occ_in r l : In r l <-> 0 < occ r l.
Proof.
  induction l as [|a l IH]; simpl; [split; [contradiction|lia]|]. destruct (N.eqb_spec a r) as [->|NE].
  - split; [lia|auto].
  - rewrite N.add_0_l. rewrite <- IH. split; auto. intros [E|H]; [congruence|auto].
Qed.
Lemma lookup_absent r l : ~ In r (keys l) -> lookup r l = 0.
Proof. induction l as [|[a c] l IH]; simpl; auto. intros H. destruct (N.eqb_spec a r); [exfalso; apply H; auto|]. apply IH. intros K. apply H. auto. Qed.
Lemma lookup_in r c l : NoDup (keys l) -> In (r, c) l -> lookup r l = c.
Proof.
  induction l as [|[a c'] l IH]; simpl; [contradiction|]. intros ND H. inversion ND as [|? ? N1 N2]; subst. destruct H as [H|H].
  - injection H as -> ->. rewrite N.eqb_refl. reflexivity.
  - destruct (N.eqb_spec a r) as [->|]; [exfalso; apply N1; apply (in_map fst) in H; auto|auto].
Qed.
Lemma incr_keys r l : forall k, In k (keys (incr r l)) <-> k = r \/ In k (keys l).
Proof.
  induction l as [|[a c] l IH]; intros k; simpl; [intuition congruence|]. destruct (N.eqb_spec a r) as [->|NE]; simpl; [intuition congruence|]. rewrite IH. intuition congruence.
Qed.
Lemma incr_nodup r l : NoDup (keys l) -> NoDup (keys (incr r l)).
Proof.
  induction l as [|[a c] l IH]; simpl; intros ND; [constructor; auto|]. inversion ND as [|? ? N1 N2]; subst. destruct (N.eqb_spec a r) as [->|NE]; simpl; constructor; auto.
  rewrite incr_keys. intros [E|H]; auto.
Qed.
Lemma incr_lookup r l k : lookup r l + 1 < u64 -> lookup k (incr r l) = lookup k l + (if N.eqb r k then 1 else 0).
Proof.
  induction l as [|[a c] l IH]; simpl; intros B; [destruct (N.eqb r k); reflexivity|]. destruct (N.eqb_spec a r) as [->|NE]; simpl.
  - rewrite N.mod_small by auto. destruct (N.eqb_spec r k); lia.
  - destruct (N.eqb_spec a k) as [->|NK]; [|apply IH; auto]. destruct (N.eqb_spec r k); [congruence|lia].
Qed.
Lemma incr_pos r l : (forall k, In k (keys l) -> 0 < lookup k l) -> lookup r l + 1 < u64 -> forall k, In k (keys (incr r l)) -> 0 < lookup k (incr r l).
Proof. intros HP B k Hk. rewrite incr_lookup by auto. apply incr_keys in Hk as [->|Hk]; [rewrite N.eqb_refl; lia|]. specialize (HP k Hk). lia. Qed.
Lemma lookup_total r l : lookup r l <= total l.
Proof. induction l as [|[a c] l IH]; simpl; [reflexivity|]. destruct (N.eqb a r); lia. Qed.
Lemma incr_total r l : lookup r l + 1 < u64 -> total (incr r l) = total l + 1.
Proof.
  induction l as [|[a c] l IH]; simpl; intros B; [reflexivity|]. destruct (N.eqb_spec a r) as [->|NE]; simpl; [rewrite N.mod_small by auto; lia|]. rewrite IH by auto. lia.
Qed.
(** The map as a multiset: adding the records [l] *)
Lemma incr_many l : forall m, NoDup (keys m) -> (forall k, In k (keys m) -> 0 < lookup k m) -> total m + lenN l < u64 ->
  let m' := fold_left (fun m r => incr r m) l m in
  NoDup (keys m') /\ (forall k, In k (keys m') -> 0 < lookup k m') /\ (forall k, lookup k m' = lookup k m + occ k l) /\ total m' = total m + lenN l.
Proof.
  induction l as [|r l IH]; intros m ND HP B; cbn [fold_left].
  - split; auto. split; auto. split; [intros k; simpl; lia|]. change (lenN (@nil N)) with 0. lia.
  - rewrite lenN_cons in B. pose proof (lookup_total r m). destruct (IH (incr r m)) as (I1 & I2 & I3 & I4).
    + apply incr_nodup; auto.
    + apply incr_pos; auto. lia.
    + rewrite incr_total by lia. lia.
    + cbn zeta. split; auto. split; auto. split.
      * intros k. rewrite I3, incr_lookup by lia. simpl. lia.
      * rewrite I4, incr_total by lia. rewrite lenN_cons. lia.
Qed.
(** Invariant of data sets *)
Record sound (b : bdata) : Prop := { so_nodup : NoDup (keys (b_map b)); so_pos : forall k, In k (keys (b_map b)) -> 0 < lookup k (b_map b) }.
Lemma sound_new : sound new_data. Proof. split; [constructor|contradiction]. Qed.
Lemma sound_local : sound local_data. Proof. split; [constructor|contradiction]. Qed.
Theorem add_records l : forall b n, sound b -> b_size b = Some n -> total (b_map b) + lenN l < u64 -> n + lenN l < u64 ->
  exists b', foldM AddRecord l b = Ok b' /\ sound b' /\ (forall k, lookup k (b_map b') = lookup k (b_map b) + occ k l) /\
    total (b_map b') = total (b_map b) + lenN l /\ b_size b' = Some (n + lenN l) /\ b_vars b' = b_vars b.
Proof.
  intros b n [S1 S2] EN B1 B2. destruct (incr_many l (b_map b) S1 S2 B1) as (I1 & I2 & I3 & I4).
  exists {| b_map := fold_left (fun m r => incr r m) l (b_map b); b_vars := b_vars b; b_size := Some (n + lenN l) |}.
  split; [|split; [split; auto|]; split; auto]. clear -EN B2. destruct b as [m v s]. simpl in *. subst s. revert m n B2.
  induction l as [|r l IH]; intros m n B; cbn [foldM fold_left].
  - change (lenN (@nil N)) with 0. rewrite N.add_0_r. reflexivity.
  - rewrite lenN_cons in *. unfold AddRecord at 1. cbn [getv bind b_size b_map b_vars]. rewrite N.mod_small by lia. rewrite IH by lia. f_equal. f_equal. f_equal. lia.
Qed.

(** ** Reading *)
Definition field_value (f : text) (b : bool) : Prop := exists z, atoi f = Ok z /\ b = negb (Z.eqb z 0).
Fixpoint record_of (i : N) (bs : list bool) : N :=
  match bs with [] => 0 | b :: bs' => if b then N.setbit (record_of (i + 1) bs') (i + 1) else record_of (i + 1) bs' end.
Lemma record_low i bs k : k <= i -> N.testbit (record_of i bs) k = false.
Proof. revert i. induction bs as [|b bs IH]; intros i H; [apply N.bits_0|]. simpl. destruct b; [rewrite N.setbit_neq by lia|]; apply IH; lia. Qed.
(** bit i + 1 + j is the j-th of the row *)
Lemma record_bit bs : forall i j, N.testbit (record_of i bs) (i + 1 + N.of_nat j) = nth j bs false.
Proof.
  induction bs as [|b bs IH]; intros i j; [destruct j; apply N.bits_0|]. destruct j as [|j].
  - rewrite N.add_0_r. simpl. destruct b; [apply N.setbit_eq|apply record_low; lia].
  - simpl record_of. simpl nth. specialize (IH (i + 1) j). replace (i + 1 + N.of_nat (S j)) with (i + 1 + 1 + N.of_nat j) by lia.
    destruct b; [rewrite N.setbit_neq by lia|]; exact IH.
Qed.
Lemma setbit_lor r i : N.setbit r i = N.lor r (2 ^ i).
Proof. apply N.setbit_spec'. Qed.
Lemma row_bits_spec fs bs : Forall2 field_value fs bs -> forall i r, i + lenN fs < max_var -> row_bits i fs r = Ok (N.lor r (record_of i bs)).
Proof.
  induction 1 as [|f b fs bs (z & E & ->) F IH]; intros i r B; cbn [row_bits record_of].
  - rewrite N.lor_0_r. reflexivity.
  - rewrite lenN_cons in B. rewrite E. cbn [bind]. destruct (Z.eqb z 0); cbn [negb]; [apply IH; lia|].
    rewrite (proj2 (N.ltb_lt _ _)) by lia. rewrite IH by lia. rewrite !setbit_lor. f_equal. rewrite <- !N.lor_assoc. f_equal. apply N.lor_comm.
Qed.
Lemma read_rows_rows fuel : forall p rs p' b, rows fuel p = Ok (rs, p') -> read_rows fuel p b = foldM read_row rs b.
Proof.
  induction fuel as [|f IH]; intros p rs p' b E; [discriminate|]. cbn [rows read_rows] in *. destruct (GetRow p) as [[r p1]| | | ] eqn:EG; cbn [bind] in *; try discriminate.
  destruct r as [row|]; [|injection E as <- _; reflexivity]. destruct (rows f p1) as [[rs1 p2]| | | ] eqn:ER; cbn [bind] in E; try discriminate. injection E as <- _.
  cbn [foldM]. destruct (read_row b row) as [b1| | | ]; cbn [bind]; auto. eapply IH; eauto.
Qed.
Definition records (bss : list (list bool)) : list N := map (record_of 0) bss.
Lemma read_rows_spec rs bss n : Forall2 (Forall2 field_value) rs bss -> Forall (fun row => lenN row = n) rs -> 0 < n -> n < max_var ->
  forall m v c, (v = 0 \/ v = n) -> c + lenN rs < u64 ->
  foldM read_row rs {| b_map := m; b_vars := Some v; b_size := Some c |} =
  Ok {| b_map := fold_left (fun m r => incr r m) (records bss) m; b_vars := Some (match rs with [] => v | _ => n end); b_size := Some (c + lenN rs) |}.
Proof.
  intros F. induction F as [|row bs rs bss F1 F2 IH]; intros FL P0 P1 m v c HV HC.
  - cbn [foldM records map fold_left]. change (lenN (@nil (list text))) with 0. rewrite N.add_0_r. reflexivity.
  - inversion FL as [|? ? L1 L2]; subst. rewrite lenN_cons in *. cbn [foldM]. unfold read_row at 1. rewrite (row_bits_spec row bs F1) by lia. cbn [bind getv b_size b_vars b_map].
    rewrite N.lor_0_l. rewrite (N.mod_small (lenN row)) by (unfold max_var, u32 in *; lia).
    assert ((N.eqb v 0 || N.eqb v (lenN row))%bool = true) as -> by (destruct HV as [->| ->]; [reflexivity|rewrite N.eqb_refl; apply orb_true_r]).
    cbn [assert bind]. rewrite (N.mod_small (c + 1)) by lia. rewrite IH; auto; [|destruct (N.eqb_spec v 0); auto; destruct HV; auto; congruence|lia].
    unfold records. cbn [map fold_left]. f_equal. f_equal; [|f_equal; lia]. f_equal. destruct (N.eqb_spec v 0); destruct rs; auto; destruct HV; congruence.
Qed.
(** ReadFile of a file of rows of the same length: the counts go up by the number of rows, the sizes are those of the file alone *)
Theorem read_file rs bss n s b : enc_file comma rs s -> Forall2 (Forall2 field_value) rs bss -> Forall (fun row => lenN row = n) rs -> 0 < n -> n < max_var -> lenN s + 3 <= big ->
  sound b -> total (b_map b) + lenN rs < u64 ->
  exists b', ReadFile b (Some s) = Ok b' /\ sound b' /\ (forall k, lookup k (b_map b') = lookup k (b_map b) + occ k (records bss)) /\
    b_size b' = Some (lenN rs) /\ b_vars b' = Some (match rs with [] => 0 | _ => n end) /\ total (b_map b') = total (b_map b) + lenN rs.
Proof.
  intros EF F FL P0 P1 B [S1 S2] T. unfold ReadFile.
  destruct (rows_file comma eq_refl rs s EF (length s + 2) (new_parser (SFile s) comma false)) as (p' & R); auto.
  all: try (cbn [new_parser p_iter]; lia).
  rewrite (read_rows_rows _ _ _ _ _ R). rewrite (read_rows_spec rs bss n F FL P0 P1) by (auto; lia).
  assert (lenN (records bss) = lenN rs) as LR. { unfold records, lenN. rewrite map_length. clear -F. induction F; simpl; lia. }
  destruct (incr_many (records bss) (b_map b) S1 S2) as (I1 & I2 & I3 & I4); [rewrite LR; lia|].
  eexists. split; [reflexivity|]. split; [split; auto|]. split; [auto|]. split; [reflexivity|]. split; auto. cbn [b_map]. rewrite I4, LR. reflexivity.
Qed.
(** rows of different lengths *)
Theorem read_ragged rs1 row rs2 bss bs n s b : enc_file comma (rs1 ++ row :: rs2) s -> Forall2 (Forall2 field_value) rs1 bss -> Forall2 field_value row bs -> rs1 <> [] ->
  Forall (fun r => lenN r = n) rs1 -> 0 < n -> n < max_var -> lenN row <> n -> lenN row < max_var -> lenN s + 3 <= big -> lenN rs1 < u64 ->
  ReadFile b (Some s) = Abort.
Proof.
  intros EF F FR NE FL P0 P1 NL PL B T. unfold ReadFile.
  destruct (rows_file comma eq_refl _ s EF (length s + 2) (new_parser (SFile s) comma false)) as (p' & R); auto.
  all: try (cbn [new_parser p_iter]; lia).
  rewrite (read_rows_rows _ _ _ _ _ R), foldM_app. rewrite (read_rows_spec rs1 bss n F FL P0 P1) by (auto; lia). cbn [bind foldM].
  unfold read_row at 1. rewrite (row_bits_spec row bs FR) by lia. cbn [bind getv b_size b_vars]. destruct rs1; [congruence|].
  rewrite (N.mod_small (lenN row)) by (unfold max_var, u32 in *; lia). rewrite (proj2 (N.eqb_neq n 0)), (proj2 (N.eqb_neq n (lenN row))) by lia. reflexivity.
Qed.

(** ** Writing *)
Lemma bits_from_len r n : forall k, length (bits_from r k n) = n.
Proof. induction n as [|n IH]; intros k; simpl; auto. Qed.
Lemma bits_from_nth r n : forall k j, nth j (bits_from r k n) false = if Nat.ltb j n then N.testbit r (k + N.of_nat j) else false.
Proof.
  induction n as [|n IH]; intros k j; [destruct j; reflexivity|]. destruct j as [|j]; cbn [bits_from nth].
  - rewrite N.add_0_r. reflexivity.
  - rewrite IH. change (Nat.ltb (S j) (S n)) with (Nat.ltb j n). destruct (Nat.ltb j n); auto. f_equal. lia.
Qed.
(** Only variables 1..v are in record r *)
Definition within (v r : N) : Prop := forall k, N.testbit r k = true -> 1 <= k <= v.
Lemma record_bits v r : within v r -> record_of 0 (bits_from r 1 (N.to_nat v)) = r.
Proof.
  intros W. apply N.bits_inj. intros k. destruct (N.eq_dec k 0) as [->|NK].
  - rewrite record_low by lia. destruct (N.testbit r 0) eqn:E; auto. apply W in E. lia.
  - replace k with (0 + 1 + N.of_nat (N.to_nat (k - 1))) at 1 by lia. rewrite record_bit, bits_from_nth. destruct (Nat.ltb_spec (N.to_nat (k - 1)) (N.to_nat v)).
    + f_equal. lia.
    + destruct (N.testbit r k) eqn:E; auto. apply W in E. lia.
Qed.
Definition bit_row (bs : list bool) : list text := map (fun b => [show_bit b]) bs.
Lemma bit_field b : enc_field comma [show_bit b] [show_bit b].
Proof. apply ef_raw. constructor; [|constructor]. destruct b; repeat split; discriminate. Qed.
Lemma bit_value b : field_value [show_bit b] b.
Proof. destruct b; eexists; split; reflexivity. Qed.
Lemma bit_row_values bs : Forall2 field_value (bit_row bs) bs.
Proof. induction bs; constructor; auto. apply bit_value. Qed.
Lemma bit_row_enc bs : bs <> [] -> enc_row comma (bit_row bs) (removelast (flat_map (fun b => [show_bit b; comma]) bs)).
Proof.
  induction bs as [|b bs IH]; [congruence|]. intros _. destruct bs as [|b' bs].
  - apply er_one, bit_field.
  - change (removelast (flat_map (fun b => [show_bit b; comma]) (b :: b' :: bs))) with ([show_bit b] ++ comma :: removelast (flat_map (fun b => [show_bit b; comma]) (b' :: bs))).
    apply (er_cons comma [show_bit b]); [apply bit_field|]. apply IH. discriminate.
Qed.
Lemma enc_lines_app d rs1 s1 rs2 s2 : enc_lines d rs1 s1 -> enc_lines d rs2 s2 -> enc_lines d (rs1 ++ rs2) (s1 ++ s2).
Proof.
  induction 1 as [|row t w rs u ER W EL IH]; auto. intros E2. cbn [app]. replace ((t ++ w ++ nl :: u) ++ s2) with (t ++ w ++ nl :: (u ++ s2)) by (rewrite <- !app_assoc; reflexivity).
  constructor; auto.
Qed.
Lemma enc_lines_repeat d row t n : enc_row d row t -> enc_lines d (repeat row n) (concat (repeat (t ++ [nl]) n)).
Proof.
  intros ER. induction n as [|n IH]; [constructor|]. cbn [repeat concat]. rewrite <- app_assoc. change ([nl] ++ concat (repeat (t ++ [nl]) n)) with ([] ++ nl :: concat (repeat (t ++ [nl]) n)).
  constructor; auto. constructor.
Qed.
Definition bit_lists (v : N) (it : list (N * N)) : list (list bool) := flat_map (fun rc => repeat (bits_from (fst rc) 1 (N.to_nat v)) (N.to_nat (snd rc))) it.
Lemma map_repeat {A B} (f : A -> B) a n : map f (repeat a n) = repeat (f a) n.
Proof. induction n; simpl; congruence. Qed.
Lemma write_records_spec v it : 1 <= v -> v < max_var -> (forall r c, In (r, c) it -> c <= int_max) ->
  exists s, write_records (Some v) it = Ok s /\ enc_lines comma (map bit_row (bit_lists v it)) s.
Proof.
  intros V1 V2. induction it as [|[r c] it IH]; intros HC.
  - exists []. split; [reflexivity|constructor].
  - destruct IH as (s & E & EL); [intros r' c' H; apply (HC r'); right; auto|]. cbn [write_records]. rewrite E.
    set (bs := bits_from r 1 (N.to_nat v)). set (t := removelast (flat_map (fun b => [show_bit b; comma]) bs)).
    exists (concat (repeat (t ++ [nl]) (N.to_nat c)) ++ s). split.
    + destruct (N.eqb_spec c 0) as [->|NC]; [reflexivity|]. rewrite (proj2 (N.ltb_ge _ _)) by (apply (HC r); left; auto). cbn [getv bind]. unfold write_line.
      rewrite (proj2 (N.eqb_neq v 0)), (proj2 (N.leb_gt _ _)) by lia. reflexivity.
    + unfold bit_lists. cbn [flat_map fst snd]. rewrite map_app, map_repeat. apply enc_lines_app; auto. apply enc_lines_repeat. apply bit_row_enc.
      intros EB. apply (f_equal (@length _)) in EB. unfold bs in EB. rewrite bits_from_len in EB. simpl in EB. lia.
Qed.
(** ** The text that WriteFile writes *)
Inductive row_text : list bool -> text -> Prop :=
| rt_one b : row_text [b] [if b then "1"%char else "0"%char]
| rt_more b bs t : row_text bs t -> row_text (b :: bs) ((if b then "1"%char else "0"%char) :: ","%char :: t).
Lemma bits_text bs : bs <> [] -> row_text bs (removelast (flat_map (fun b => [show_bit b; comma]) bs)).
Proof.
  induction bs as [|b bs IH]; [congruence|]. intros _. destruct bs as [|b' bs].
  - exact (rt_one b).
  - change (removelast (flat_map (fun b => [show_bit b; comma]) (b :: b' :: bs))) with (show_bit b :: comma :: removelast (flat_map (fun b => [show_bit b; comma]) (b' :: bs))).
    assert (row_text (b' :: bs) (removelast (flat_map (fun b => [show_bit b; comma]) (b' :: bs)))) as H by (apply IH; discriminate).
    exact (rt_more b _ _ H).
Qed.
Definition row_of (v r : N) (line : text) : Prop :=
  exists bs, row_text bs line /\ lenN bs = v /\ forall k, 1 <= k <= v -> nth_error bs (N.to_nat (k - 1)) = Some (N.testbit r k).
Lemma row_of_bits v r : 1 <= v -> row_of v r (removelast (flat_map (fun b => [show_bit b; comma]) (bits_from r 1 (N.to_nat v)))).
Proof.
  intros V. assert (length (bits_from r 1 (N.to_nat v)) = N.to_nat v) as LB by apply bits_from_len.
  exists (bits_from r 1 (N.to_nat v)). split.
  - apply bits_text. intros E. rewrite E in LB. simpl in LB. lia.
  - split; [unfold lenN; rewrite LB; lia|]. intros k K. rewrite (nth_error_nth' _ false) by lia. rewrite bits_from_nth.
    rewrite (proj2 (Nat.ltb_lt _ _)) by lia. do 2 f_equal. lia.
Qed.
Theorem written_text b v it : b_vars b = Some v -> 1 <= v -> v < max_var -> (forall r c, In (r, c) it -> c <= int_max) ->
  exists ls, WriteFile b it = Ok (concat (map (fun l => l ++ [nl]) ls)) /\ Forall2 (row_of v) (flat_map (fun rc => repeat (fst rc) (N.to_nat (snd rc))) it) ls.
Proof.
  intros EV V1 V2 HC. unfold WriteFile. rewrite EV. clear EV. induction it as [|[r c] it IH].
  - exists []. split; [reflexivity|constructor].
  - destruct IH as (ls & E & F); [intros r' c' H; apply (HC r'); right; auto|]. cbn [write_records]. rewrite E.
    set (t := removelast (flat_map (fun b => [show_bit b; comma]) (bits_from r 1 (N.to_nat v)))).
    exists (repeat t (N.to_nat c) ++ ls). split.
    + rewrite map_app, concat_app, map_repeat. destruct (N.eqb_spec c 0) as [->|NC]; [reflexivity|]. rewrite (proj2 (N.ltb_ge _ _)) by (apply (HC r); left; auto).
      cbn [getv bind]. unfold write_line. rewrite (proj2 (N.eqb_neq v 0)), (proj2 (N.leb_gt _ _)) by lia. reflexivity.
    + cbn [flat_map fst snd]. apply Forall2_app; auto. clear - V1. assert (row_of v r t) as H by (apply row_of_bits; auto). induction (N.to_nat c); constructor; auto.
Qed.
Lemma occ_repeat k r n : occ k (repeat r n) = if N.eqb r k then N.of_nat n else 0.
Proof. induction n as [|n IH]; simpl; [destruct (N.eqb r k); reflexivity|]. rewrite IH. destruct (N.eqb r k); lia. Qed.
Lemma lookup_sum k it : NoDup (keys it) -> lookup k it = fold_right (fun rc n => (if N.eqb (fst rc) k then snd rc else 0) + n) 0 it.
Proof.
  induction it as [|[r c] it IH]; simpl; auto. intros ND. inversion ND as [|? ? N1 N2]; subst. rewrite <- IH by auto. destruct (N.eqb_spec r k) as [->|]; auto.
  rewrite lookup_absent by auto. lia.
Qed.
Lemma lookup_perm k l l' : NoDup (keys l) -> Permutation l l' -> lookup k l' = lookup k l.
Proof.
  intros ND PM. assert (NoDup (keys l')) as ND' by (eapply Permutation_NoDup; [apply Permutation_map; eauto|auto]). rewrite !lookup_sum by auto. clear ND ND'.
  induction PM; simpl; auto; lia.
Qed.
Lemma total_perm l l' : Permutation l l' -> total l' = total l.
Proof. induction 1; simpl; lia. Qed.
Lemma bit_lists_occ v it k : (forall r c, In (r, c) it -> within v r) -> NoDup (keys it) -> occ k (records (bit_lists v it)) = lookup k it.
Proof.
  intros W ND. rewrite lookup_sum by auto. clear ND. induction it as [|[r c] it IH]; [reflexivity|]. unfold bit_lists, records in *. cbn [flat_map fst snd fold_right].
  rewrite map_app, occ_app, map_repeat, occ_repeat, record_bits by (apply (W r c); left; auto). rewrite IH by (intros r' c' H; apply (W r' c'); right; auto).
  f_equal. destruct (N.eqb r k); auto. lia.
Qed.
Lemma bit_lists_len v it : lenN (bit_lists v it) = total it.
Proof. induction it as [|[r c] it IH]; [reflexivity|]. unfold bit_lists in *. cbn [flat_map fst snd]. rewrite lenN_app, IH. unfold lenN. rewrite repeat_length. simpl. lia. Qed.
Lemma rows_bits bss : Forall2 (Forall2 field_value) (map bit_row bss) bss.
Proof. induction bss; constructor; auto. apply bit_row_values. Qed.
(** WriteFile, then ReadFile into a new object *)
Theorem write_read_data b v it : sound b -> b_vars b = Some v -> 1 <= v -> v < max_var -> (forall r, In r (keys (b_map b)) -> within v r) ->
  (forall r, lookup r (b_map b) <= int_max) -> Permutation (b_map b) it -> total (b_map b) < u64 ->
  exists s, WriteFile b it = Ok s /\ (lenN s + 3 <= big -> exists b', ReadFile new_data (Some s) = Ok b' /\ sound b' /\
    (forall r, lookup r (b_map b') = lookup r (b_map b)) /\ b_size b' = Some (total (b_map b)) /\ (b_map b <> [] -> b_vars b' = Some v) /\ (b_map b = [] -> b_vars b' = Some 0)).
Proof.
  intros [S1 S2] EV V1 V2 W HC PM HT. unfold WriteFile. rewrite EV.
  assert (NoDup (keys it)) as ND by (eapply Permutation_NoDup; [apply Permutation_map; eauto|auto]).
  destruct (write_records_spec v it V1 V2) as (s & E & EL).
  { intros r c H. apply (Permutation_in _ (Permutation_sym PM)) in H. rewrite <- (lookup_in r c _ S1 H). apply HC. }
  exists s. split; auto. intros B.
  destruct (read_file _ (bit_lists v it) v s new_data (enc_lines_file comma _ _ EL) (rows_bits _)) as (b' & R & SB & CB & ZB & VB & TB); auto; try lia.
  - apply Forall_forall. intros row H. apply in_map_iff in H as (bs & <- & H). unfold bit_lists in H. apply in_flat_map in H as ([r c] & _ & H). apply repeat_spec in H. subst bs.
    unfold bit_row, lenN. rewrite map_length, bits_from_len. lia.
  - apply sound_new.
  - cbn [new_data b_map total fold_right]. unfold lenN. rewrite map_length. fold (lenN (bit_lists v it)). rewrite bit_lists_len, (total_perm _ _ PM). lia.
  - exists b'. split; auto. split; auto. split; [|split; [|split]].
    + intros r. rewrite CB. cbn [new_data b_map lookup]. rewrite bit_lists_occ; auto; [rewrite (lookup_perm r _ _ S1 PM); lia|].
      intros r' c H. apply W. apply (Permutation_in _ (Permutation_sym PM)) in H. apply (in_map fst) in H. exact H.
    + rewrite ZB. f_equal. unfold lenN. rewrite map_length. fold (lenN (bit_lists v it)). rewrite bit_lists_len. apply total_perm; auto.
    + intros NE. rewrite VB. destruct (map bit_row (bit_lists v it)) eqn:EM; auto. exfalso. apply (f_equal (@length _)) in EM. rewrite map_length in EM.
      assert (total it = 0) as T0 by (rewrite <- (bit_lists_len v it); unfold lenN; rewrite EM; reflexivity). rewrite (total_perm _ _ PM) in T0.
      destruct (b_map b) as [|[r c] l] eqn:EB; [congruence|]. specialize (S2 r). simpl in S2, T0. rewrite N.eqb_refl in S2. specialize (S2 (or_introl eq_refl)). lia.
    + intros EB. rewrite EB in PM. apply Permutation_nil in PM. subst it. rewrite VB. reflexivity.
Qed.
(** a data set that nothing was said about the variables of cannot be written *)
Theorem write_zero b it r c : In (r, c) it -> 0 < c -> (b_vars b = Some 0 \/ b_vars b = None) -> WriteFile b it = UB.
Proof.
  intros H HC EV. unfold WriteFile. induction it as [|[r' c'] it IH]; [contradiction|]. cbn [write_records].
  destruct (N.eqb_spec c' 0) as [->|NC].
  - cbn [bind]. destruct H as [H|H]; [inversion H; subst; lia|]. rewrite IH by auto. reflexivity.
  - destruct (N.ltb int_max c'); [reflexivity|]. destruct EV as [-> | ->]; reflexivity.
Qed.

(** ** Entropy *)
Section Entropy.
Local Open Scope R_scope.
Definition cR (n : N) : R := INR (N.to_nat n).
Definition freq (c n : N) : R := cR c / cR n.
(** The entropy, in nats, of the empirical distribution *)
Definition entropy (l : list (N * N)) (n : N) : R := fold_right (fun rc e => - (freq (snd rc) n * ln (freq (snd rc) n)) + e) 0 l.
Lemma cR_pos n : (0 < n)%N -> 0 < cR n.
Proof. intros H. apply lt_0_INR. lia. Qed.
Lemma cR_le a b : (a <= b)%N -> cR a <= cR b.
Proof. intros H. apply le_INR. lia. Qed.
Lemma cR_lt a b : (a < b)%N -> cR a < cR b.
Proof. intros H. apply lt_INR. lia. Qed.
Lemma entropy_perm l l' n : Permutation l l' -> entropy l' n = entropy l n.
Proof. induction 1; simpl; lra. Qed.
Lemma fold_entropy l n : (0 < n)%N -> (forall r c, In (r, c) l -> (0 < c)%N) -> forall e,
  fold_left (fun e (rc : N * N) => e + INR (N.to_nat (snd rc)) * (ln (INR (N.to_nat (snd rc))) - ln (INR (N.to_nat n)))) l e = e - cR n * entropy l n.
Proof.
  intros HN. induction l as [|[r c] l IH]; intros HC e; simpl; [lra|]. rewrite IH by (intros r' c' H; apply (HC r'); right; auto).
  assert (0 < c)%N as C0 by (apply (HC r); left; auto). fold (cR c) (cR n). unfold freq.
  replace (ln (cR c / cR n)) with (ln (cR c) - ln (cR n)). { pose proof (cR_pos n HN). field. lra. }
  unfold Rdiv. rewrite ln_mult by (auto using cR_pos, Rinv_0_lt_compat). rewrite ln_Rinv by (auto using cR_pos). reflexivity.
Qed.
Lemma term_nonneg c n : (0 < c)%N -> (c <= n)%N -> 0 <= - (freq c n * ln (freq c n)).
Proof.
  intros C0 CN. pose proof (cR_pos c C0) as P1. pose proof (cR_pos n ltac:(lia)) as P2. pose proof (cR_le c n CN) as P3.
  assert (0 < freq c n) as F0 by (apply Rdiv_lt_0_compat; auto).
  assert (ln (freq c n) <= 0) as L. { rewrite <- ln_1. destruct (Rle_lt_or_eq_dec (freq c n) 1) as [H|H].
    - unfold freq. apply (Rmult_le_reg_r (cR n)); auto. unfold Rdiv. rewrite Rmult_assoc, Rinv_l by lra. lra.
    - left. apply ln_increasing; auto.
    - rewrite H. lra. }
  assert (freq c n * - ln (freq c n) >= 0) by (apply Rle_ge, Rmult_le_pos; lra). lra.
Qed.
Lemma term_pos c n : (0 < c)%N -> (c < n)%N -> 0 < - (freq c n * ln (freq c n)).
Proof.
  intros C0 CN. pose proof (cR_pos c C0) as P1. pose proof (cR_pos n ltac:(lia)) as P2. pose proof (cR_lt c n CN) as P3.
  assert (0 < freq c n) as F0 by (apply Rdiv_lt_0_compat; auto).
  assert (freq c n < 1) as F1. { unfold freq. apply (Rmult_lt_reg_r (cR n)); auto. unfold Rdiv. rewrite Rmult_assoc, Rinv_l by lra. lra. }
  assert (ln (freq c n) < 0) as L by (rewrite <- ln_1; apply ln_increasing; auto).
  assert (0 < freq c n * - ln (freq c n)) by (apply Rmult_lt_0_compat; lra). lra.
Qed.
Lemma total_ge l r c : In (r, c) l -> (c <= total l)%N.
Proof. induction l as [|[a d] l IH]; simpl; [contradiction|]. intros [E|H]; [injection E as -> ->; lia|]. specialize (IH H). lia. Qed.
Lemma entropy_nonneg l n : (forall r c, In (r, c) l -> (0 < c)%N /\ (c <= n)%N) -> 0 <= entropy l n.
Proof.
  induction l as [|[r c] l IH]; intros H; simpl; [lra|]. destruct (H r c (or_introl eq_refl)). pose proof (term_nonneg c n ltac:(auto) ltac:(auto)).
  assert (0 <= entropy l n) by (apply IH; intros r' c' Hi; apply (H r'); right; auto). lra.
Qed.
(** what is computed is the negated entropy: 0 for one kind of record and negative otherwise *)
Theorem entropy_spec b it n : sound b -> b_size b = Some n -> n = total (b_map b) -> b_map b <> [] -> Permutation (b_map b) it ->
  exists e, CalculateEntropy b it = Ok (Some e) /\ e = - entropy (b_map b) n /\ e <= 0 /\ (e = 0 <-> length (b_map b) = 1%nat).
Proof.
  intros [S1 S2] EN ET NE PM. assert (forall r c, In (r, c) (b_map b) -> (0 < c)%N /\ (c <= n)%N) as HC.
  { intros r c H. split; [|subst n; eapply total_ge; eauto]. rewrite <- (lookup_in r c _ S1 H). apply S2. apply (in_map fst) in H. exact H. }
  assert (0 < n)%N as HN. { destruct (b_map b) as [|[r c] l]; [congruence|]. specialize (HC r c (or_introl eq_refl)). lia. }
  unfold CalculateEntropy. rewrite EN. cbn [getv bind]. rewrite (proj2 (N.eqb_neq n 0)) by lia. eexists. split; [reflexivity|].
  rewrite fold_entropy; auto; [|intros r c H; apply (Permutation_in _ (Permutation_sym PM)) in H; apply (HC r c H)]. rewrite (entropy_perm _ _ n PM). fold (cR n).
  pose proof (cR_pos n HN) as PN. assert ((0 - cR n * entropy (b_map b) n) / cR n = - entropy (b_map b) n) as -> by (field; lra). split; auto.
  pose proof (entropy_nonneg _ n HC) as P0. split; [lra|]. destruct (b_map b) as [|[r c] [|[r' c'] l]]; [congruence| |].
  - split; auto. intros _. simpl in ET. assert (c = n) as -> by lia. simpl. unfold freq. replace (cR n / cR n) with 1 by (field; lra). rewrite ln_1. lra.
  - split; [|discriminate]. intros E. exfalso. simpl in ET. destruct (HC r c (or_introl eq_refl)). destruct (HC r' c' (or_intror (or_introl eq_refl))).
    pose proof (term_pos c n ltac:(auto) ltac:(lia)). pose proof (term_pos c' n ltac:(auto) ltac:(lia)).
    assert (0 <= entropy l n) by (apply entropy_nonneg; intros rr cc Hr; apply (HC rr); right; right; auto). simpl in E. lra.
Qed.
Theorem entropy_empty b it : b_size b = Some 0%N -> CalculateEntropy b it = Ok None.
Proof. intros E. unfold CalculateEntropy. rewrite E. reflexivity. Qed.
End Entropy.

(** ** JSON *)
(** Legal examples: arrays of numbers 0..v; [zs]: the numbers *)
Definition legal (v : Z) (ex : json) (zs : list Z) : Prop := ex = JArr (map JNum zs) /\ Forall (fun z => (0 <= z <= v)%Z) zs.
Definition bad_entry (v : Z) (j : json) : Prop := match j with JNum z => (v < z)%Z | _ => True end.
Definition illegal (v : Z) (ex : json) : Prop :=
  match ex with JArr l => exists zs j l', l = map JNum zs ++ j :: l' /\ Forall (fun z => (0 <= z <= v)%Z) zs /\ bad_entry v j | _ => True end.
Definition record_set (zs : list Z) (r : N) : Prop := forall k, N.testbit r k = true <-> In (Z.of_N k) zs.
Definition set_all (zs : list Z) (r : N) : N := fold_left (fun r z => N.setbit r (Z.to_N z)) zs r.
Lemma set_all_bits zs : Forall (fun z => (0 <= z)%Z) zs -> forall r k, N.testbit (set_all zs r) k = true <-> In (Z.of_N k) zs \/ N.testbit r k = true.
Proof.
  induction 1 as [|z zs H F IH]; intros r k; simpl; [intuition|]. rewrite IH. destruct (Z.eq_dec z (Z.of_N k)) as [->|NE].
  - rewrite N2Z.id, N.setbit_eq. intuition.
  - rewrite N.setbit_neq by lia. intuition congruence.
Qed.
Lemma record_set_all zs : Forall (fun z => (0 <= z)%Z) zs -> record_set zs (set_all zs 0).
Proof. intros F k. rewrite set_all_bits by auto. rewrite N.bits_0. intuition discriminate. Qed.
Lemma record_set_fun zs r r' : record_set zs r -> record_set zs r' -> r = r'.
Proof.
  intros H H'. apply N.bits_inj. intros k. specialize (H k). specialize (H' k). destruct (N.testbit r k), (N.testbit r' k); intuition congruence.
Qed.
Lemma example_prefix v zs rest : (v < 65536)%Z -> Forall (fun z => (0 <= z <= v)%Z) zs -> forall r, example_bits (JNum v) (map JNum zs ++ rest) r = example_bits (JNum v) rest (set_all zs r).
Proof.
  intros HV F. induction F as [|z zs H F IH]; intros r; [reflexivity|]. cbn [map app example_bits json_le]. rewrite (proj2 (Z.leb_le z v)) by lia.
  rewrite (proj2 (Z.leb_le 0 z)), (proj2 (Z.ltb_lt z 65536)) by lia. cbn [andb]. apply IH.
Qed.
(** Each example legal or illegal; [rs]: the records of the legal ones *)
Inductive exs (v : Z) : list json -> list N -> Prop :=
| exs_nil : exs v [] []
| exs_legal ex zs r l rs : legal v ex zs -> record_set zs r -> exs v l rs -> exs v (ex :: l) (r :: rs)
| exs_illegal ex l rs : illegal v ex -> exs v l rs -> exs v (ex :: l) rs.
Lemma add_examples v l rs : (v < 65536)%Z -> exs v l rs -> forall b, foldM (add_example (JNum v)) l b = foldM AddRecord rs b.
Proof.
  intros HV. induction 1 as [|ex zs r l rs [-> F] RS E IH|ex l rs HI E IH]; intros b; cbn [foldM]; auto.
  - unfold add_example at 1. rewrite <- (app_nil_r (map JNum zs)), example_prefix by auto. cbn [example_bits bind].
    assert (set_all zs 0 = r) as ->. { eapply record_set_fun; eauto. apply record_set_all. eapply Forall_impl; [|exact F]. simpl; intros; lia. }
    destruct (AddRecord b r); cbn [bind]; auto.
  - destruct ex as [| | | |a|]; cbn [add_example bind]; auto. destruct HI as (zs & j & l' & -> & F & BE). rewrite example_prefix by auto.
    destruct j as [| |z| | |]; cbn [example_bits bind]; auto. simpl in BE. cbn [json_le]. rewrite (proj2 (Z.leb_gt z v)) by lia. cbn [bind]. auto.
Qed.
Theorem read_json kv v data rs : member (str "variable_size") kv = Some (JNum v) -> member (str "data") kv = Some (JArr data) -> (0 <= v < 65536)%Z -> exs v data rs ->
  lenN rs < u64 ->
  exists b, ReadSparseDataJsonFile (JObj kv) = Ok (Some b) /\ sound b /\ (forall k, lookup k (b_map b) = occ k rs) /\ b_size b = Some (lenN rs) /\ b_vars b = Some (Z.to_N v).
Proof.
  intros E1 E2 HV EX B. cbn [ReadSparseDataJsonFile]. rewrite E1, E2. cbn [to_u32 bind elements]. rewrite (add_examples v data rs) by (auto; lia).
  rewrite Z.mod_small by lia. destruct (add_records rs (set_variable_size new_data (Z.to_N v)) 0) as (b & E & SB & C & T & Z & V).
  - split; [constructor|contradiction].
  - reflexivity.
  - cbn [set_variable_size new_data b_map total fold_right]. lia.
  - lia.
  - rewrite E. cbn [bind]. exists b. split; [reflexivity|]. split; [exact SB|]. split; [intros k; rewrite C; reflexivity|]. split; [rewrite Z; f_equal; lia|]. rewrite V. reflexivity.
Qed.
(** a negative number, before anything illegal, stops the program *)
Theorem json_negative kv v zs z l data : member (str "variable_size") kv = Some (JNum v) -> member (str "data") kv = Some (JArr (JArr (map JNum zs ++ JNum z :: l) :: data)) ->
  (0 <= v < 65536)%Z -> Forall (fun z => (0 <= z <= v)%Z) zs -> (z < 0)%Z -> ReadSparseDataJsonFile (JObj kv) = Abort.
Proof.
  intros E1 E2 HV F HZ. cbn [ReadSparseDataJsonFile]. rewrite E1, E2. cbn [to_u32 bind elements foldM]. unfold add_example at 1. rewrite example_prefix by (auto; lia).
  cbn [example_bits json_le]. rewrite (proj2 (Z.leb_le z v)), (proj2 (Z.leb_gt 0 z)) by lia. reflexivity.
Qed.
(** ** Other documents *)
(** An example without entries *)
Definition no_entry (j : json) : bool := match j with JArr [] => true | _ => false end.
Lemma bool_examples (t : bool) l : forall b, foldM (add_example (JBool t)) l b = foldM AddRecord (map (fun _ => 0) (filter no_entry l)) b.
Proof.
  induction l as [|ex l IH]; intros b; [reflexivity|]. cbn [foldM filter]. destruct ex as [| | | |a|]; cbn [add_example bind no_entry]; auto.
  destruct a as [|[| |z| | |] a]; cbn [example_bits bind json_le map foldM]; auto. destruct (AddRecord b 0); cbn [bind]; auto.
Qed.
Theorem read_json_bool kv t data : member (str "variable_size") kv = Some (JBool t) -> member (str "data") kv = Some data ->
  lenN (filter no_entry (elements data)) < u64 ->
  exists b, ReadSparseDataJsonFile (JObj kv) = Ok (Some b) /\ sound b /\ b_vars b = Some (if t then 1 else 0) /\ b_size b = Some (lenN (filter no_entry (elements data))) /\
    (forall k, k <> 0 -> lookup k (b_map b) = 0) /\ lookup 0 (b_map b) = lenN (filter no_entry (elements data)).
Proof.
  intros E1 E2 B. cbn [ReadSparseDataJsonFile]. rewrite E1, E2. cbn [to_u32 bind]. rewrite bool_examples. set (n := filter no_entry (elements data)) in *.
  assert (LN : lenN (map (fun _ => 0) n) = lenN n) by (unfold lenN; rewrite map_length; reflexivity).
  destruct (add_records (map (fun _ => 0) n) (set_variable_size new_data (if t then 1 else 0)) 0) as (b & E & SB & C & T & Z & V).
  - split; [constructor|contradiction].
  - reflexivity.
  - cbn [set_variable_size new_data b_map total fold_right]. lia.
  - rewrite LN. lia.
  - rewrite E. cbn [bind]. exists b. split; [reflexivity|]. split; [exact SB|]. split; [rewrite V; reflexivity|]. split; [rewrite Z, LN; f_equal; lia|]. split.
    + intros k NK. rewrite C. cbn [set_variable_size new_data b_map lookup]. clear - NK. induction n as [|x n IH]; [reflexivity|]. cbn [map occ]. destruct (N.eqb_spec 0 k); [congruence|lia].
    + rewrite C. cbn [set_variable_size new_data b_map lookup]. clear. induction n as [|x n IH]; [reflexivity|]. cbn [map occ]. rewrite N.eqb_refl. unfold lenN in *. cbn [length]. lia.
Qed.
(** The outcomes that do not depend on the examples *)
Theorem read_json_other : (forall j, (match j with JObj _ => False | _ => True end) -> ReadSparseDataJsonFile j = Ok None) /\
  (forall kv, member (str "variable_size") kv = None \/ member (str "data") kv = None -> ReadSparseDataJsonFile (JObj kv) = Ok None) /\
  (forall kv vs data, member (str "variable_size") kv = Some vs -> member (str "data") kv = Some data ->
     (match vs with JNum _ | JBool _ => False | _ => True end) -> ReadSparseDataJsonFile (JObj kv) = Abort) /\
  (forall kv vs d data, member (str "variable_size") kv = Some vs -> member (str "data") kv = Some data -> (match vs with JNum _ | JBool _ => True | _ => False end) ->
     (match data with JArr _ | JObj _ => False | _ => True end) -> ReadSparseDataJsonFile (JObj kv) = Ok (Some d) -> b_map d = [] /\ b_size d = Some 0).
Proof.
  split; [intros [] H; try reflexivity; contradiction|]. split; [|split].
  - intros kv [E|E]; cbn [ReadSparseDataJsonFile]; rewrite E; [reflexivity|]. destruct (member (str "variable_size") kv); reflexivity.
  - intros kv vs data E1 E2 H. cbn [ReadSparseDataJsonFile]. rewrite E1, E2. destruct vs; try contradiction; reflexivity.
  - intros kv vs d data E1 E2 H1 H2 E. cbn [ReadSparseDataJsonFile] in E. rewrite E1, E2 in E.
    destruct vs; try contradiction; destruct data; try contradiction; cbn [to_u32 elements foldM add_example bind] in E; injection E as <-; split; reflexivity.
Qed.
(** A number that a record has no place for *)
Theorem json_large kv v zs z l data : member (str "variable_size") kv = Some (JNum v) -> member (str "data") kv = Some (JArr (JArr (map JNum zs ++ JNum z :: l) :: data)) ->
  Forall (fun z => (0 <= z <= v /\ z < 65536)%Z) zs -> (65536 <= z <= v)%Z -> ReadSparseDataJsonFile (JObj kv) = Abort.
Proof.
  intros E1 E2 F HZ. cbn [ReadSparseDataJsonFile]. rewrite E1, E2. cbn [to_u32 bind elements foldM]. unfold add_example at 1.
  assert (K : forall r, example_bits (JNum v) (map JNum zs ++ JNum z :: l) r = Abort).
  { clear - F HZ. induction F as [|y zs Hy F IH]; intros r; cbn [map app example_bits json_le].
    - rewrite (proj2 (Z.leb_le z v)), (proj2 (Z.ltb_ge z 65536)), andb_false_r by lia. reflexivity.
    - rewrite (proj2 (Z.leb_le y v)), (proj2 (Z.ltb_lt y 65536)), (proj2 (Z.leb_le 0 y)) by lia. cbn [andb]. apply IH. }
  rewrite K. reflexivity.
Qed.
