(** How numbers are read from texts, for every text (C67). *)
From Coq Require Import Ascii String Reals Lra.
From Verif Require Import Base Text IO Data Uai.
Local Open Scope N_scope.

Definition value (ds : list N) : N := fold_left (fun a d => 10 * a + d) ds 0.
Definition numeral (ds : list N) : text := map digit_char ds.
Definition is_digits (ds : list N) : Prop := Forall (fun d => d < 10) ds.
Fixpoint ulist (u : Decimal.uint) : list N :=
  match u with
  | Decimal.Nil => []
  | Decimal.D0 u => 0 :: ulist u | Decimal.D1 u => 1 :: ulist u | Decimal.D2 u => 2 :: ulist u | Decimal.D3 u => 3 :: ulist u | Decimal.D4 u => 4 :: ulist u
  | Decimal.D5 u => 5 :: ulist u | Decimal.D6 u => 6 :: ulist u | Decimal.D7 u => 7 :: ulist u | Decimal.D8 u => 8 :: ulist u | Decimal.D9 u => 9 :: ulist u
  end.
Lemma of_acc u : forall acc, Npos (Pos.of_uint_acc u acc) = fold_left (fun a d => 10 * a + d) (ulist u) (Npos acc).
Proof. induction u; intros acc; cbn [Pos.of_uint_acc ulist fold_left]; auto; rewrite IHu; f_equal; lia. Qed.
Lemma of_uint_value u : N.of_uint u = value (ulist u).
Proof. unfold value. induction u; cbn [ulist fold_left]; [reflexivity| |apply of_acc..]. exact IHu. Qed.
Definition prepend (d : N) (u : Decimal.uint) : Decimal.uint :=
  match d with
  | 0 => Decimal.D0 u | 1 => Decimal.D1 u | 2 => Decimal.D2 u | 3 => Decimal.D3 u | 4 => Decimal.D4 u
  | 5 => Decimal.D5 u | 6 => Decimal.D6 u | 7 => Decimal.D7 u | 8 => Decimal.D8 u | _ => Decimal.D9 u
  end.
Ltac ten d H := assert (d = 0 \/ d = 1 \/ d = 2 \/ d = 3 \/ d = 4 \/ d = 5 \/ d = 6 \/ d = 7 \/ d = 8 \/ d = 9) as H by lia;
  destruct H as [->|[->|[->|[->|[->|[->|[->|[->|[->| ->]]]]]]]]].
Lemma take_numeral ds rest : is_digits ds -> nodig rest -> exists u, take_digits (numeral ds ++ rest) = (u, rest) /\ ulist u = ds.
Proof.
  intros F H. induction F as [|d ds L F IH].
  - exists Decimal.Nil. split; [|reflexivity]. destruct rest as [|c rest]; auto. simpl in *. rewrite H. reflexivity.
  - destruct IH as (u & E & U). exists (prepend d u). ten d K; cbn [numeral map app]; fold (numeral ds); (split; [|cbn; rewrite U; reflexivity]); cbn [digit_char take_digits]; cbn -[numeral]; rewrite E; reflexivity.
Qed.
Lemma is_nil_ulist u : is_nil u = match ulist u with [] => true | _ => false end.
Proof. destruct u; reflexivity. Qed.

(** Blanks, a sign or none, digits *)
Inductive sign := Plus | Minus | Unsigned.
Definition sign_text (s : sign) : text := match s with Plus => [ "+"%char ] | Minus => [ "-"%char ] | Unsigned => [] end.
Definition signed (s : sign) (n : N) : Z := match s with Minus => - Z.of_N n | _ => Z.of_N n end.
(** the digits end here, and if there are neither sign nor digits this is no blank and no sign *)
Definition ends (s : sign) (ds : list N) (rest : text) : Prop :=
  nodig rest /\ (s = Unsigned -> ds = [] -> match rest with c :: _ => is_space c = false /\ c <> "+"%char /\ c <> "-"%char | [] => True end).
Definition blanks (ws : text) : Prop := Forall (fun c => is_space c = true) ws.
Lemma skip_blanks ws s : blanks ws -> skip_ws (ws ++ s) = skip_ws s.
Proof. induction 1 as [|c ws H F IH]; auto. cbn [app skip_ws]. rewrite H. auto. Qed.
(** Every text is of this form. *)
Lemma digit_split c : (exists d, d < 10 /\ c = digit_char d) \/ digit_of c = None.
Proof.
  destruct (digit_of c) eqn:E; [left|auto].
  destruct c as [[] [] [] [] [] [] [] []]; try discriminate E;
  (exists 0; split; [lia|reflexivity]) || (exists 1; split; [lia|reflexivity]) || (exists 2; split; [lia|reflexivity]) || (exists 3; split; [lia|reflexivity]) ||
  (exists 4; split; [lia|reflexivity]) || (exists 5; split; [lia|reflexivity]) || (exists 6; split; [lia|reflexivity]) || (exists 7; split; [lia|reflexivity]) ||
  (exists 8; split; [lia|reflexivity]) || (exists 9; split; [lia|reflexivity]).
Qed.
Lemma split_digits s : exists ds rest, s = numeral ds ++ rest /\ is_digits ds /\ nodig rest.
Proof.
  induction s as [|c s (ds & rest & -> & F & H)]; [exists [], []; repeat split; constructor|].
  destruct (digit_split c) as [(d & L & ->)|E].
  - exists (d :: ds), rest. repeat split; auto. constructor; auto.
  - exists [], (c :: numeral ds ++ rest). repeat split; auto. constructor.
Qed.
Lemma split_number s : exists ws sg ds rest, s = ws ++ sign_text sg ++ numeral ds ++ rest /\ blanks ws /\ is_digits ds /\ ends sg ds rest.
Proof.
  assert (exists ws r, s = ws ++ r /\ blanks ws /\ match r with c :: _ => is_space c = false | [] => True end) as (ws & r & -> & B & H).
  { induction s as [|c s (ws & r & -> & B & H)]; [exists [], []; repeat split; constructor|]. destruct (is_space c) eqn:E.
    - exists (c :: ws), r. repeat split; auto. constructor; auto.
    - exists [], (c :: ws ++ r). repeat split; auto. constructor. }
  destruct r as [|c r].
  { exists ws, Unsigned, [], []. repeat split; auto. constructor. }
  destruct (ascii_dec c "-") as [->|N1]; [|destruct (ascii_dec c "+") as [->|N2]].
  - destruct (split_digits r) as (ds & rest & -> & F & K). exists ws, Minus, ds, rest. repeat split; auto. discriminate.
  - destruct (split_digits r) as (ds & rest & -> & F & K). exists ws, Plus, ds, rest. repeat split; auto. discriminate.
  - destruct (split_digits (c :: r)) as (ds & rest & E & F & K). exists ws, Unsigned, ds, rest. rewrite E. repeat split; auto.
    intros _ ->. simpl in E. subst rest. auto.
Qed.
(** What the three readers have in common *)
Lemma digit_plain d : d < 10 -> is_space (digit_char d) = false /\ Ascii.eqb (digit_char d) "-" = false /\ Ascii.eqb (digit_char d) "+" = false.
Proof. intros L. ten d K; repeat split. Qed.
Lemma number_head ws sg ds rest : blanks ws -> is_digits ds -> ends sg ds rest ->
  (skip_ws (ws ++ sign_text sg ++ numeral ds ++ rest) = [] /\ sg = Unsigned /\ ds = [] /\ rest = []) \/
  exists c s' u, skip_ws (ws ++ sign_text sg ++ numeral ds ++ rest) = c :: s' /\
    (if Ascii.eqb c "-" then (true, s') else if Ascii.eqb c "+" then (false, s') else (false, c :: s')) = (match sg with Minus => true | _ => false end, numeral ds ++ rest) /\
    take_digits (numeral ds ++ rest) = (u, rest) /\ ulist u = ds.
Proof.
  intros B F [K1 K2]. rewrite skip_blanks by auto. destruct (take_numeral ds rest F K1) as (u & E & U).
  destruct sg; cbn [sign_text app].
  - right. exists "+"%char, (numeral ds ++ rest), u. auto.
  - right. exists "-"%char, (numeral ds ++ rest), u. auto.
  - destruct ds as [|d ds].
    + specialize (K2 eq_refl eq_refl). cbn [numeral map app] in *. destruct rest as [|c rest]; [left; auto|right]. destruct K2 as (S & N1 & N2).
      exists c, rest, u. cbn [skip_ws]. rewrite S. rewrite (proj2 (Ascii.eqb_neq c "-")) by auto. rewrite (proj2 (Ascii.eqb_neq c "+")) by auto. auto.
    + right. inversion F as [|? ? L F']; subst. destruct (digit_plain d L) as (S & N1 & N2). cbn [numeral map app] in *. exists (digit_char d), (map digit_char ds ++ rest), u.
      cbn [skip_ws]. rewrite S, N1, N2. auto.
Qed.
Definition int_ok (z : Z) : Prop := (-2147483648 <= z <= 2147483647)%Z.
Lemma int_ok_dec z : ((z <? -2147483648) || (2147483647 <? z))%Z = false <-> int_ok z.
Proof. unfold int_ok. rewrite orb_false_iff, !Z.ltb_ge. tauto. Qed.
Lemma signed_match sg n : (if match sg with Minus => true | _ => false end then - Z.of_N n else Z.of_N n)%Z = signed sg n.
Proof. destruct sg; reflexivity. Qed.
Theorem atoi_spec ws sg ds rest : blanks ws -> is_digits ds -> ends sg ds rest ->
  let z := signed sg (value ds) in
  (int_ok z -> atoi (ws ++ sign_text sg ++ numeral ds ++ rest) = Ok z) /\ (~ int_ok z -> atoi (ws ++ sign_text sg ++ numeral ds ++ rest) = UB).
Proof.
  intros B F K z. unfold atoi. destruct (number_head ws sg ds rest B F K) as [(E & -> & -> & ->)|(c & s' & u & E & E1 & E2 & U)]; rewrite E.
  - split; auto. unfold z. simpl. intros H. exfalso. apply H. unfold int_ok. lia.
  - rewrite E1, E2. cbn [fst]. rewrite of_uint_value, U, signed_match. fold z. rewrite <- int_ok_dec. destruct (_ || _); split; auto; congruence.
Qed.
Theorem stoi_spec ws sg ds rest : blanks ws -> is_digits ds -> ends sg ds rest ->
  let z := signed sg (value ds) in
  (ds <> [] -> int_ok z -> stoi (ws ++ sign_text sg ++ numeral ds ++ rest) = Ok z) /\
  (ds = [] \/ ~ int_ok z -> stoi (ws ++ sign_text sg ++ numeral ds ++ rest) = Abort).
Proof.
  intros B F K z. unfold stoi. destruct (number_head ws sg ds rest B F K) as [(E & -> & -> & ->)|(c & s' & u & E & E1 & E2 & U)]; rewrite E.
  - split; auto. congruence.
  - rewrite E1, E2. cbn [fst]. rewrite is_nil_ulist, of_uint_value, U, signed_match. fold z. rewrite <- int_ok_dec. rewrite <- orb_assoc.
    destruct ds; [split; [congruence|auto]|]. cbn [orb]. destruct (_ || _); split; auto; intuition congruence.
Qed.
(** operator>>: [w] is what the variable holds afterwards, None if it was not assigned *)
Theorem ex_int_spec lo hi ws sg ds rest : blanks ws -> is_digits ds -> ends sg ds rest -> (lo <= 0 <= hi)%Z ->
  let s := ws ++ sign_text sg ++ numeral ds ++ rest in let v := Z.of_N (value ds) in let z := signed sg (value ds) in
  ex_int lo hi (s, false) = (None, (s, false)) /\
  (sg = Unsigned -> ds = [] -> rest = [] -> ex_int lo hi (s, true) = (None, ([], false))) /\
  (ds = [] -> (sg <> Unsigned \/ rest <> []) -> ex_int lo hi (s, true) = (Some 0%Z, (rest, false))) /\
  (ds <> [] -> lo = 0%Z -> (v <= hi)%Z -> exists k, (z + k * (hi + 1) <= hi)%Z /\ (0 <= z + k * (hi + 1))%Z /\ ex_int lo hi (s, true) = (Some (z + k * (hi + 1))%Z, (rest, true))) /\
  (ds <> [] -> lo = 0%Z -> (hi < v)%Z -> ex_int lo hi (s, true) = (Some hi, (rest, false))) /\
  (ds <> [] -> (lo < 0)%Z -> (lo <= z <= hi)%Z -> ex_int lo hi (s, true) = (Some z, (rest, true))) /\
  (ds <> [] -> (lo < 0)%Z -> (z < lo)%Z -> ex_int lo hi (s, true) = (Some lo, (rest, false))) /\
  (ds <> [] -> (lo < 0)%Z -> (hi < z)%Z -> ex_int lo hi (s, true) = (Some hi, (rest, false))).
Proof.
  intros B F K LH s v z. split; [reflexivity|].
  destruct (number_head ws sg ds rest B F K) as [(E & -> & -> & ->)|(c & s' & u & E & E1 & E2 & U)].
  { split. { intros _ _ _. unfold ex_int. cbn [negb]. fold s in E. rewrite E. reflexivity. } split; [intuition congruence|]. repeat split; congruence. }
  assert (ex_int lo hi (s, true) = (if match ds with [] => true | _ => false end then (Some 0%Z, (rest, false)) else
      if (lo =? 0)%Z then if (hi <? v)%Z then (Some hi, (rest, false)) else (Some (z mod (hi + 1))%Z, (rest, true))
      else if (z <? lo)%Z then (Some lo, (rest, false)) else if (hi <? z)%Z then (Some hi, (rest, false)) else (Some z, (rest, true)))) as X.
  { unfold ex_int. cbn [negb]. fold s in E. rewrite E. rewrite E1, E2. rewrite is_nil_ulist, of_uint_value, U, signed_match. fold v z. reflexivity. }
  rewrite X. split.
  { intros -> -> ->. exfalso. clear X. subst s. rewrite skip_blanks in E by auto. discriminate. }
  split. { intros -> _. reflexivity. }
  repeat split; intros D; destruct ds as [|d ds]; try congruence; clear D; intros L H.
  - subst lo. rewrite Z.eqb_refl. rewrite (proj2 (Z.ltb_ge hi v)) by auto. exists (- (z / (hi + 1)))%Z.
    assert (z mod (hi + 1) = z + - (z / (hi + 1)) * (hi + 1))%Z as Q by (rewrite Z.mod_eq by lia; ring). rewrite <- Q.
    pose proof (Z.mod_pos_bound z (hi + 1)). repeat split; lia.
  - subst lo. rewrite Z.eqb_refl. rewrite (proj2 (Z.ltb_lt hi v)) by auto. reflexivity.
  - rewrite (proj2 (Z.eqb_neq lo 0)) by lia. rewrite (proj2 (Z.ltb_ge z lo)) by lia. rewrite (proj2 (Z.ltb_ge hi z)) by lia. reflexivity.
  - rewrite (proj2 (Z.eqb_neq lo 0)) by lia. rewrite (proj2 (Z.ltb_lt z lo)) by lia. reflexivity.
  - rewrite (proj2 (Z.eqb_neq lo 0)) by lia. rewrite (proj2 (Z.ltb_ge z lo)) by lia. rewrite (proj2 (Z.ltb_lt hi z)) by lia. reflexivity.
Qed.
(** ** Doubles: [rd_dec] accepts exactly sign, digits, and possibly a point and digits, with at least one digit *)
Lemma digit_val_char d : d < 10 -> digit_val (digit_char d) = Some d.
Proof. intros L. ten d K; reflexivity. Qed.
Lemma digit_val_inv c d : digit_val c = Some d -> d < 10 /\ c = digit_char d.
Proof.
  unfold digit_val, digit_char. destruct (N.leb_spec 48 (N_of_ascii c)); [|discriminate]. destruct (N.leb_spec (N_of_ascii c) 57); [|discriminate].
  cbn [andb]. intros E. injection E as <-. split; [lia|]. replace (48 + (N_of_ascii c - 48)) with (N_of_ascii c) by lia. symmetry. apply ascii_N_embedding.
Qed.
Lemma dec_of_spec s : forall acc n, dec_of acc s = Some n <-> exists ds, is_digits ds /\ s = numeral ds /\ n = fold_left (fun a d => 10 * a + d) ds acc.
Proof.
  induction s as [|c s IH]; intros acc n; cbn [dec_of].
  - split; [intros E; injection E as <-; exists []; repeat split; constructor|]. intros (ds & _ & E & ->). destruct ds; [reflexivity|discriminate].
  - destruct (digit_val c) as [d|] eqn:E.
    + apply digit_val_inv in E as [L ->]. rewrite IH. split.
      * intros (ds & F & -> & ->). exists (d :: ds). repeat split; [constructor; auto|]. cbn [fold_left]. f_equal. lia.
      * intros (ds & F & E & ->). destruct ds as [|d' ds]; [discriminate|]. injection E as E E'. inversion F as [|? ? L' F']; subst.
        assert (d' = d) as -> by (pose proof (digit_val_char d L) as A; rewrite E, digit_val_char in A by auto; congruence).
        exists ds. repeat split; auto. cbn [fold_left]. f_equal. lia.
    + split; [discriminate|]. intros (ds & F & E' & _). destruct ds as [|d' ds]; [discriminate|]. injection E' as -> _. inversion F; subst. rewrite digit_val_char in E by auto. discriminate.
Qed.
Lemma numeral_no_dot ds : is_digits ds -> ~ In "."%char (numeral ds).
Proof. intros F I. apply in_map_iff in I as (d & E & I). unfold is_digits in F. rewrite Forall_forall in F. specialize (F d I). ten d K; discriminate. Qed.
Lemma split_dot_spec s : (~ In "."%char s /\ split_dot s = (s, [])) \/ exists a b, s = a ++ "."%char :: b /\ ~ In "."%char a /\ split_dot s = (a, b).
Proof.
  induction s as [|c s IH]; [left; split; auto|]. cbn [split_dot]. destruct (Ascii.eqb_spec c ".") as [->|N].
  - right. exists [], s. auto.
  - destruct IH as [(NI & ->)|(a & b & -> & NI & ->)]; [left; split; auto; intros [?|?]; auto|right]. exists (c :: a), b. repeat split; auto. intros [?|?]; auto.
Qed.
Lemma first_dot (a b a' b' : text) : ~ In "."%char a -> ~ In "."%char a' -> a ++ "."%char :: b = a' ++ "."%char :: b' -> a = a' /\ b = b'.
Proof.
  revert a'. induction a as [|c a IH]; intros [|c' a'] N N' E; simpl in E.
  - injection E as <-. auto.
  - injection E as <- E. exfalso. apply N'. left. reflexivity.
  - injection E as -> E. exfalso. apply N. left. reflexivity.
  - injection E as <- E. destruct (IH a') as [-> ->]; auto; intros I; [apply N|apply N']; right; auto.
Qed.
(** digits, or digits, a point and digits; not both empty *)
Definition unsigned_text (s : text) (a b : list N) : Prop :=
  is_digits a /\ is_digits b /\ a ++ b <> [] /\ (s = numeral a ++ "."%char :: numeral b \/ (b = [] /\ s = numeral a)).
Lemma numeral_app a b : numeral (a ++ b) = numeral a ++ numeral b.
Proof. apply map_app. Qed.
Lemma numeral_split ds a b : is_digits ds -> numeral ds = a ++ b -> exists x y, ds = x ++ y /\ a = numeral x /\ b = numeral y.
Proof.
  revert a. induction ds as [|d ds IH]; intros a F E.
  - symmetry in E. apply app_eq_nil in E as [-> ->]. exists [], []. auto.
  - destruct a as [|c a]; [simpl in E; subst b; exists [], (d :: ds); auto|]. injection E as <- E. inversion F; subst. destruct (IH a) as (x & y & -> & -> & ->); auto.
    exists (d :: x), y. auto.
Qed.
Lemma rd_unsigned_spec s r : rd_unsigned s = Some r <-> exists a b, unsigned_text s a b /\ (r = IZR (Z.of_N (value (a ++ b))) / 10 ^ List.length b)%R.
Proof.
  unfold rd_unsigned. assert (forall a b : list N, is_digits (a ++ b) <-> is_digits a /\ is_digits b) as FA by (intros; apply Forall_app).
  assert (forall x : text, match x with [] => None | ab => match dec_of 0 ab with Some n => Some n | None => None end end = if match x with [] => true | _ => false end then None else dec_of 0 x) as _ by (intros []; auto; destruct (dec_of _ _); auto).
  destruct (split_dot_spec s) as [(NI & ->)|(a & b & -> & NI & ->)].
  - rewrite app_nil_r. split.
    + intros E. destruct s as [|c s]; [discriminate|]. destruct (dec_of 0 (c :: s)) as [n|] eqn:D; [|discriminate]. injection E as <-. apply dec_of_spec in D as (ds & F & E & ->).
      exists ds, []. split; [|rewrite app_nil_r; reflexivity]. repeat split; auto; [constructor|]. rewrite app_nil_r. intros ->. discriminate.
    + intros (a & b & (F1 & F2 & NE & [->|(-> & ->)]) & ->); [exfalso; apply NI, in_or_app; right; left; reflexivity|]. rewrite app_nil_r in *.
      assert (dec_of 0 (numeral a) = Some (value a)) as D by (apply dec_of_spec; exists a; auto). destruct a as [|d a]; [congruence|]. cbn [numeral map] in *. rewrite D. reflexivity.
  - split.
    + intros E. destruct (a ++ b) as [|c s] eqn:EE; [discriminate|]. destruct (dec_of 0 (c :: s)) as [n|] eqn:D; [|discriminate]. injection E as <-. apply dec_of_spec in D as (ds & F & E & ->).
      rewrite <- EE in E. symmetry in E. destruct (numeral_split ds a b F E) as (x & y & -> & -> & ->). exists x, y. apply FA in F as [F1 F2]. split; [|unfold numeral; rewrite map_length; reflexivity].
      repeat split; auto. intros Q. apply app_eq_nil in Q as [-> ->]. discriminate.
    + intros (x & y & (F1 & F2 & NE & [E|(-> & E)]) & ->).
      * apply first_dot in E as [-> ->]; auto; [|apply numeral_no_dot; auto]. rewrite <- numeral_app.
        assert (dec_of 0 (numeral (x ++ y)) = Some (value (x ++ y))) as D by (apply dec_of_spec; exists (x ++ y); repeat split; auto; apply FA; auto).
        destruct (x ++ y) as [|d ds]; [congruence|]. cbn [numeral map] in *. rewrite D. unfold numeral. rewrite map_length. reflexivity.
      * exfalso. apply (numeral_no_dot x F1). rewrite <- E. apply in_or_app. right. left. reflexivity.
Qed.
Definition real_sign (sg : sign) (r : R) : R := match sg with Minus => (- r)%R | _ => r end.
Lemma unsigned_head s a b : unsigned_text s a b -> exists c s', s = c :: s' /\ Ascii.eqb c "-" = false /\ Ascii.eqb c "+" = false.
Proof.
  intros (F1 & F2 & NE & [->|(-> & ->)]).
  - destruct a as [|d a]; [exists "."%char, (numeral b); auto|]. inversion F1; subst. destruct (digit_plain d) as (_ & ? & ?); auto. exists (digit_char d), (numeral a ++ "."%char :: numeral b). auto.
  - destruct a as [|d a]; [simpl in NE; congruence|]. inversion F1; subst. destruct (digit_plain d) as (_ & ? & ?); auto. exists (digit_char d), (numeral a). auto.
Qed.
Lemma rd_signed_spec w r : rd_signed w = Some r <->
  exists sg s a b, w = sign_text sg ++ s /\ unsigned_text s a b /\ r = real_sign sg (IZR (Z.of_N (value (a ++ b))) / 10 ^ List.length b)%R.
Proof.
  unfold rd_signed. destruct w as [|c w].
  { split; [discriminate|]. intros (sg & s & a & b & E & U & _). destruct (unsigned_head s a b U) as (c & s' & -> & _). destruct sg; discriminate. }
  destruct (Ascii.eqb_spec c "-") as [->|N1]; [|destruct (Ascii.eqb_spec c "+") as [->|N2]].
  - split.
    + intros E. destruct (rd_unsigned w) as [x|] eqn:D; [|discriminate]. injection E as <-. apply rd_unsigned_spec in D as (a & b & U & ->). exists Minus, w, a, b. auto.
    + intros (sg & s & a & b & E & U & ->). assert (rd_unsigned s = Some (IZR (Z.of_N (value (a ++ b))) / 10 ^ List.length b)%R) as D by (apply rd_unsigned_spec; eauto).
      destruct sg; try discriminate; [injection E as ->; rewrite D; reflexivity|]. destruct (unsigned_head s a b U) as (c & s' & -> & Q & _). injection E as <- <-. discriminate.
  - split.
    + intros D. apply rd_unsigned_spec in D as (a & b & U & ->). exists Plus, w, a, b. auto.
    + intros (sg & s & a & b & E & U & ->). assert (rd_unsigned s = Some (IZR (Z.of_N (value (a ++ b))) / 10 ^ List.length b)%R) as D by (apply rd_unsigned_spec; eauto).
      destruct sg; try discriminate; [injection E as ->; rewrite D; reflexivity|]. destruct (unsigned_head s a b U) as (c & s' & -> & _ & Q). injection E as <- <-. discriminate.
  - split.
    + intros D. apply rd_unsigned_spec in D as (a & b & U & ->). exists Unsigned, (c :: w), a, b. auto.
    + intros (sg & s & a & b & E & U & ->). destruct sg; try (injection E as E _; congruence). simpl in E. subst s. apply rd_unsigned_spec. eauto.
Qed.
Definition no_e (s : text) : Prop := ~ In "e"%char s /\ ~ In "E"%char s.
Lemma split_exp_spec s : (no_e s /\ split_exp s = (s, None)) \/ exists a c b, s = a ++ c :: b /\ (c = "e"%char \/ c = "E"%char) /\ no_e a /\ split_exp s = (a, Some b).
Proof.
  unfold no_e. induction s as [|c s IH]; [left; repeat split; intros []|]. cbn [split_exp]. destruct (Ascii.eqb_spec c "e") as [->|N1]; [right; exists [], "e"%char, s; repeat split; auto; intros []|].
  destruct (Ascii.eqb_spec c "E") as [->|N2]; [right; exists [], "E"%char, s; repeat split; auto; intros []|]. cbn [orb].
  destruct IH as [((A & B) & ->)|(a & x & b & -> & X & (A & B) & ->)]; [left|right].
  - split; auto. split; intros [?|?]; auto.
  - exists (c :: a), x, b. do 2 (split; auto). split; auto. split; intros [?|?]; auto.
Qed.
Lemma first_e a x b a' x' b' : no_e a -> no_e a' -> (x = "e"%char \/ x = "E"%char) -> (x' = "e"%char \/ x' = "E"%char) -> a ++ x :: b = a' ++ x' :: b' -> a = a' /\ b = b'.
Proof.
  unfold no_e. revert a'. induction a as [|c a IH]; intros [|c' a'] (N1 & N2) (N3 & N4) X X' E; simpl in E.
  - injection E as _ <-. auto.
  - injection E as <- E. exfalso. destruct X as [->| ->]; [apply N3|apply N4]; left; reflexivity.
  - injection E as -> E. exfalso. destruct X' as [->| ->]; [apply N1|apply N2]; left; reflexivity.
  - injection E as <- E. destruct (IH a') as [-> ->]; auto; split; intros I; [apply N1|apply N2|apply N3|apply N4]; right; auto.
Qed.
Lemma numeral_no_e ds : is_digits ds -> no_e (numeral ds).
Proof. intros F. split; intros I; apply in_map_iff in I as (d & E & I); unfold is_digits in F; rewrite Forall_forall in F; specialize (F d I); ten d K; discriminate. Qed.
Lemma no_e_app a b : no_e a -> no_e b -> no_e (a ++ b).
Proof. intros (A & B) (C & D). split; rewrite in_app_iff; tauto. Qed.
Lemma sign_no_e sg : no_e (sign_text sg).
Proof. destruct sg; split; intros H; repeat (destruct H as [H|H]; [discriminate H|]); exact H. Qed.
Lemma unsigned_no_e s a b : unsigned_text s a b -> no_e s.
Proof.
  intros (A & B & _ & [->|(_ & ->)]); [|apply numeral_no_e; auto]. apply no_e_app; [apply numeral_no_e; auto|]. destruct (numeral_no_e b B) as (X & Y).
  split; intros [H|H]; try discriminate H; auto.
Qed.
Lemma rd_nat_spec s z : rd_nat s = Some z <-> exists ds, is_digits ds /\ ds <> [] /\ s = numeral ds /\ z = Z.of_N (value ds).
Proof.
  unfold rd_nat. split.
  - intros E. destruct s as [|c s]; [discriminate|]. destruct (dec_of 0 (c :: s)) as [n|] eqn:D; [|discriminate]. injection E as <-. apply dec_of_spec in D as (ds & F & E & ->).
    exists ds. repeat split; auto. intros ->. discriminate.
  - intros (ds & F & NE & -> & ->). assert (dec_of 0 (numeral ds) = Some (value ds)) as D by (apply dec_of_spec; exists ds; auto). destruct ds as [|d ds]; [congruence|].
    cbn [numeral map] in *. rewrite D. reflexivity.
Qed.
Lemma numeral_head ds : is_digits ds -> ds <> [] -> exists c s, numeral ds = c :: s /\ Ascii.eqb c "-" = false /\ Ascii.eqb c "+" = false.
Proof. intros F NE. destruct ds as [|d ds]; [congruence|]. inversion F; subst. exists (digit_char d), (numeral ds). split; [reflexivity|]. ten d K; auto. Qed.
Lemma rd_exp_spec s z : rd_exp s = Some z <-> exists sg ds, is_digits ds /\ ds <> [] /\ s = sign_text sg ++ numeral ds /\ z = signed sg (value ds).
Proof.
  unfold rd_exp. destruct s as [|c s].
  { split; [discriminate|]. intros (sg & ds & F & NE & E & _). destruct sg, ds; discriminate || congruence. }
  destruct (Ascii.eqb_spec c "-") as [->|N1]; [|destruct (Ascii.eqb_spec c "+") as [->|N2]].
  - split.
    + intros E. destruct (rd_nat s) as [x|] eqn:D; [|discriminate]. injection E as <-. apply rd_nat_spec in D as (ds & F & NE & -> & ->). exists Minus, ds. auto.
    + intros (sg & ds & F & NE & E & ->). destruct sg; try discriminate.
      * injection E as ->. assert (rd_nat (numeral ds) = Some (Z.of_N (value ds))) as -> by (apply rd_nat_spec; eauto). reflexivity.
      * destruct (numeral_head ds F NE) as (c & s' & Q & Q1 & _). simpl in E. rewrite Q in E. injection E as <- <-. discriminate.
  - split.
    + intros D. apply rd_nat_spec in D as (ds & F & NE & -> & ->). exists Plus, ds. auto.
    + intros (sg & ds & F & NE & E & ->). destruct sg; try discriminate.
      * injection E as ->. apply rd_nat_spec. eauto.
      * destruct (numeral_head ds F NE) as (c & s' & Q & _ & Q1). simpl in E. rewrite Q in E. injection E as <- <-. discriminate.
  - split.
    + intros D. apply rd_nat_spec in D as (ds & F & NE & E & ->). exists Unsigned, ds. auto.
    + intros (sg & ds & F & NE & E & ->). destruct sg; try (injection E as E _; congruence). simpl in E. apply rd_nat_spec. exists ds. auto.
Qed.
(** [number sg a b]: the number with sign sg, digits a before and b after the point *)
Definition number (sg : sign) (a b : list N) : R := real_sign sg (IZR (Z.of_N (value (a ++ b))) / 10 ^ List.length b)%R.
Theorem rd_dec_spec w r : rd_dec w = Some r <->
  exists sg s a b, unsigned_text s a b /\
    ((w = sign_text sg ++ s /\ r = number sg a b) \/
     exists c sg' ds, (c = "e"%char \/ c = "E"%char) /\ is_digits ds /\ ds <> [] /\ w = (sign_text sg ++ s) ++ c :: sign_text sg' ++ numeral ds /\
       r = (number sg a b * powerRZ 10 (signed sg' (value ds)))%R).
Proof.
  unfold rd_dec. destruct (split_exp_spec w) as [(NE & ->)|(x & c & y & -> & C & NE & ->)].
  - rewrite rd_signed_spec. split.
    + intros (sg & s & a & b & -> & U & ->). exists sg, s, a, b. auto.
    + intros (sg & s & a & b & U & [(-> & ->)|(c & sg' & ds & C & _ & _ & -> & _)]); [exists sg, s, a, b; auto|].
      exfalso. destruct NE as (N1 & N2). destruct C as [->| ->]; [apply N1|apply N2]; apply in_elt.
  - split.
    + destruct (rd_signed x) as [q|] eqn:D; [|discriminate]. destruct (rd_exp y) as [z|] eqn:D2; [|discriminate]. intros E. injection E as <-.
      apply rd_signed_spec in D as (sg & s & a & b & -> & U & ->). apply rd_exp_spec in D2 as (sg' & ds & F & NN & -> & ->).
      exists sg, s, a, b. split; auto. right. exists c, sg', ds. auto.
    + intros (sg & s & a & b & U & [(E & ->)|(c' & sg' & ds & C' & F & NN & E & ->)]).
      * exfalso. assert (no_e (x ++ c :: y)) as (N1 & N2) by (rewrite E; apply no_e_app; [apply sign_no_e|eapply unsigned_no_e; eauto]).
        destruct C as [->| ->]; [apply N1|apply N2]; apply in_elt.
      * apply first_e in E as [-> ->]; auto; [|apply no_e_app; [apply sign_no_e|eapply unsigned_no_e; eauto]].
        assert (rd_signed (sign_text sg ++ s) = Some (number sg a b)) as -> by (apply rd_signed_spec; exists sg, s, a, b; auto).
        assert (rd_exp (sign_text sg' ++ numeral ds) = Some (signed sg' (value ds))) as -> by (apply rd_exp_spec; exists sg', ds; auto). reflexivity.
Qed.
(** ** find *)
Lemma is_prefix_spec p s : is_prefix p s = true <-> exists b, s = p ++ b.
Proof.
  revert s. induction p as [|a p IH]; intros s; cbn [is_prefix]; [split; [intros _; exists s; reflexivity|reflexivity]|]. destruct s as [|c s]; [split; [discriminate|intros (b & E); discriminate]|].
  rewrite andb_true_iff, IH, Ascii.eqb_eq. split; [intros (-> & b & ->); exists b; auto|]. intros (b & E). injection E as -> ->. eauto.
Qed.
Theorem contains_spec p s : contains p s = true <-> exists a b, s = a ++ p ++ b.
Proof.
  induction s as [|c s IH]; cbn [contains]; rewrite orb_true_iff, is_prefix_spec.
  - split; [intros [(b & E)|?]; [exists [], b; exact E|discriminate]|]. intros (a & b & E). left. symmetry in E. apply app_eq_nil in E as [-> E]. exists b. auto.
  - rewrite IH. split.
    + intros [(b & E)|(a & b & ->)]; [exists [], b; exact E|exists (c :: a), b; reflexivity].
    + intros (a & b & E). destruct a as [|x a]; [left; exists b; exact E|right]. simpl in E. injection E as -> ->. eauto.
Qed.
