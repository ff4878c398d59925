(** Property theorem C67: numbers in files.  Every text is blanks, a sign or none, digits, and a rest ([ends]: the rest does not start with a
    digit; without sign and digits it starts neither with a blank nor with a sign).  [numeral ds]: the text of the digits ds;
    [value ds]: their decimal value; [signed sg n]: n with its sign; [int_ok]: fits an int. *)
From Coq Require Import Ascii String Reals Lra.
From Verif Require Import Base Text IO Data Uai UaiProofs NumProofs.
Local Open Scope N_scope.

Theorem C67_every_text : forall s, exists ws sg ds rest, s = ws ++ sign_text sg ++ numeral ds ++ rest /\ blanks ws /\ is_digits ds /\ ends sg ds rest.
Proof. exact split_number. Qed.
Print Assumptions C67_every_text.
(** atoi (fields of data files): the number at the start of the field, 0 if there is none; undefined when it is no int *)
Theorem C67_data_field : forall ws sg ds rest, blanks ws -> is_digits ds -> ends sg ds rest -> let s := ws ++ sign_text sg ++ numeral ds ++ rest in
  let z := signed sg (value ds) in (int_ok z -> atoi s = Ok z) /\ (~ int_ok z -> atoi s = UB).
Proof. exact atoi_spec. Qed.
Print Assumptions C67_data_field.
(** stoi (sizes in UAI files): the same, but no number and a number that is no int stop the program *)
Theorem C67_uai_size : forall ws sg ds rest, blanks ws -> is_digits ds -> ends sg ds rest -> let s := ws ++ sign_text sg ++ numeral ds ++ rest in
  let z := signed sg (value ds) in (ds <> [] -> int_ok z -> stoi s = Ok z) /\ (ds = [] \/ ~ int_ok z -> stoi s = Abort).
Proof. exact stoi_spec. Qed.
Print Assumptions C67_uai_size.
(** operator>> into an integer type with values lo..hi, lo = 0 for unsigned ones: what the variable holds (None: what it held before), what is
    left of the stream, and whether it is good.  Negative numbers are accepted by unsigned types and taken modulo the number of values. *)
Theorem C67_extraction : forall lo hi ws sg ds rest, blanks ws -> is_digits ds -> ends sg ds rest -> (lo <= 0 <= hi)%Z ->
  let s := ws ++ sign_text sg ++ numeral ds ++ rest in let v := Z.of_N (value ds) in let z := signed sg (value ds) in
  ex_int lo hi (s, false) = (None, (s, false)) /\
  (sg = Unsigned -> ds = [] -> rest = [] -> ex_int lo hi (s, true) = (None, ([], false))) /\
  (ds = [] -> (sg <> Unsigned \/ rest <> []) -> ex_int lo hi (s, true) = (Some 0%Z, (rest, false))) /\
  (ds <> [] -> lo = 0%Z -> (v <= hi)%Z -> exists k, (z + k * (hi + 1) <= hi)%Z /\ (0 <= z + k * (hi + 1))%Z /\ ex_int lo hi (s, true) = (Some (z + k * (hi + 1))%Z, (rest, true))) /\
  (ds <> [] -> lo = 0%Z -> (hi < v)%Z -> ex_int lo hi (s, true) = (Some hi, (rest, false))) /\
  (ds <> [] -> (lo < 0)%Z -> (lo <= z <= hi)%Z -> ex_int lo hi (s, true) = (Some z, (rest, true))) /\
  (ds <> [] -> (lo < 0)%Z -> (z < lo)%Z -> ex_int lo hi (s, true) = (Some lo, (rest, false))) /\
  (ds <> [] -> (lo < 0)%Z -> (hi < z)%Z -> ex_int lo hi (s, true) = (Some hi, (rest, false))).
Proof. exact ex_int_spec. Qed.
Print Assumptions C67_extraction.
Example C67_nonvacuous : str " -007,x" = str " " ++ sign_text Minus ++ numeral [0; 0; 7] ++ str ",x" /\ ends Minus [0; 0; 7] (str ",x") /\ value [0; 0; 7] = 7 /\
  atoi (str " -007,x") = Ok (-7)%Z /\ stoi (str "x") = Abort /\ ex_u32 (str "-1 2", true) = (Some 4294967295%Z, (str " 2", true)).
Proof. split; [reflexivity|]. split; [split; [reflexivity|discriminate]|]. repeat split. Qed.
(** Numbers with a fraction: [unsigned_text s a b]: the digits a, or a, a point and the digits b, not both empty; [number sg a b]: their value with the
    sign sg; e or E, a sign or none and digits may follow *)
Theorem C67_real : forall w r, rd_dec w = Some r <->
  exists sg s a b, unsigned_text s a b /\
    ((w = sign_text sg ++ s /\ r = number sg a b) \/
     exists c sg' ds, (c = "e"%char \/ c = "E"%char) /\ is_digits ds /\ ds <> [] /\ w = (sign_text sg ++ s) ++ c :: sign_text sg' ++ numeral ds /\
       r = (number sg a b * powerRZ 10 (signed sg' (value ds)))%R).
Proof. exact rd_dec_spec. Qed.
Print Assumptions C67_real.
Example C67_real_nonvacuous : unsigned_text (str "2.50") [2] [5; 0] /\ number Minus [2] [5; 0] = (- (5 / 2))%R /\ rd_dec (str "-2.50") = Some (number Minus [2] [5; 0]) /\
  rd_dec (str "-2.50E-05") = Some (number Minus [2%N] [5%N; 0%N] * powerRZ 10 (-5))%R /\ rd_dec (str "-inf") = None /\ rd_dec (str "1-5") = None /\ rd_dec (str "1e") = None.
Proof.
  split; [unfold unsigned_text, is_digits; repeat split; [repeat constructor|repeat constructor|discriminate|left; reflexivity]|].
  split; [unfold number; simpl; lra|]. repeat split.
Qed.
(** The type of a network: BAYES anywhere in the first line *)
Theorem C67_find : forall p s, contains p s = true <-> exists a b, s = a ++ p ++ b.
Proof. exact contains_spec. Qed.
Print Assumptions C67_find.
(** Blanks, words and lines.  [blank_char]: the six white-space characters of the C locale.  [spaced s ws]: the text s consists of the words ws,
    separated by at least one blank, possibly with blanks before and after; [broken s ls]: it consists of the lines ls, where the last may lack its
    newline if it is not empty. *)
Definition blank_char (c : ascii) : Prop := In (N_of_ascii c) [9; 10; 11; 12; 13; 32].
Inductive spaced : text -> list text -> Prop :=
| sp_end g : Forall blank_char g -> spaced g []
| sp_word g w r ws : Forall blank_char g -> w <> [] -> Forall (fun c => ~ blank_char c) w -> match r with [] => True | c :: _ => blank_char c end -> spaced r ws ->
    spaced (g ++ w ++ r) (w :: ws).
Inductive broken : text -> list text -> Prop :=
| br_nil : broken [] []
| br_last l : l <> [] -> ~ In "010"%char l -> broken l [l]
| br_line l r ls : ~ In "010"%char l -> broken r ls -> broken (l ++ "010"%char :: r) (l :: ls).
Theorem C67_blanks : forall c, is_space c = true <-> blank_char c.
Proof.
  intros c. unfold blank_char. destruct c as [[] [] [] [] [] [] [] []]; vm_compute; split; intros H; auto 10; try discriminate; repeat (destruct H as [H|H]; [discriminate|]); destruct H.
Qed.
Print Assumptions C67_blanks.
Lemma not_blank c : plain c <-> ~ blank_char c.
Proof. unfold plain. rewrite <- C67_blanks. destruct (is_space c); split; congruence. Qed.
Lemma gap_blank g : blanks g <-> Forall blank_char g.
Proof. unfold blanks. rewrite !Forall_forall. split; intros H c Hc; apply C67_blanks; auto. Qed.
Lemma spaced_words s ws : spaced s ws -> words s = ws.
Proof.
  induction 1 as [g G|g w r ws G NE F B S IH].
  - apply gap_blank in G. rewrite words_eq. rewrite <- (app_nil_r g), skip_blanks by auto. reflexivity.
  - apply gap_blank in G. rewrite words_eq, skip_blanks by auto. assert (Forall plain w) as F' by (eapply Forall_impl; [|exact F]; intros; apply not_blank; auto).
    destruct w as [|c w]; [congruence|]. inversion F'; subst. cbn [app]. rewrite skip_ws_plain by auto. change (c :: w ++ r) with ((c :: w) ++ r).
    assert (starts_blank r) as SB by (destruct r; simpl; auto; apply C67_blanks; auto). rewrite take_word_app by auto. reflexivity.
Qed.
Lemma spaced_total s : exists ws, spaced s ws.
Proof.
  remember (length s) as n eqn:E. revert s E. induction n as [n IH] using (well_founded_induction lt_wf). intros s ->.
  assert (exists g r, s = g ++ r /\ blanks g /\ match r with c :: _ => plain c | [] => True end) as (g & r & -> & G & H).
  { clear. induction s as [|c s (g & r & -> & G & H)]; [exists [], []; repeat split; constructor|]. destruct (is_space c) eqn:B.
    - exists (c :: g), r. repeat split; auto. constructor; auto.
    - exists [], (c :: g ++ r). repeat split; auto. constructor. }
  destruct r as [|c r]. { exists []. rewrite app_nil_r. constructor. apply gap_blank; auto. }
  pose proof (take_word_spec (c :: r)) as T. cbn [take_word] in T. unfold plain in H. rewrite H in T. destruct (take_word r) as [w r'] eqn:TW. destruct T as (E & F & SB).
  destruct (IH (length r')) with (s := r') as [ws W]; auto. { rewrite E, !app_length. simpl. lia. }
  exists ((c :: w) :: ws). rewrite E. constructor; auto; [apply gap_blank; auto|discriminate|eapply Forall_impl; [|exact F]; intros; apply not_blank; auto|].
  destruct r'; simpl in SB; auto. apply C67_blanks; auto.
Qed.
(** operator>> into a string that is then converted: the next word, and what follows it *)
Theorem C67_next_word : forall A (rd : text -> option A) zero g w r, Forall blank_char g -> w <> [] -> Forall (fun c => ~ blank_char c) w -> match r with [] => True | c :: _ => blank_char c end ->
  ex_word rd zero (g ++ w ++ r, true) = (Some (match rd w with Some a => a | None => zero end), (r, match rd w with Some _ => true | None => false end)) /\
  ex_word rd zero (g, true) = (None, ([], false)) /\ ex_word rd zero (g ++ w ++ r, false) = (None, (g ++ w ++ r, false)).
Proof.
  intros A rd zero g w r G NE F B. apply gap_blank in G. assert (Forall plain w) as F' by (eapply Forall_impl; [|exact F]; intros; apply not_blank; auto).
  assert (starts_blank r) as SB by (destruct r; simpl; auto; apply C67_blanks; auto).
  unfold ex_word. cbn [negb]. split; [|split; [rewrite <- (app_nil_r g), skip_blanks by auto; reflexivity|reflexivity]].
  rewrite skip_blanks by auto. destruct w as [|c w]; [congruence|]. inversion F'; subst. cbn [app]. rewrite skip_ws_plain by auto. change (c :: w ++ r) with ((c :: w) ++ r).
  rewrite take_word_app by auto. destruct (rd (c :: w)); reflexivity.
Qed.
Print Assumptions C67_next_word.
Theorem C67_words : forall s ws, words s = ws <-> spaced s ws.
Proof.
  intros s ws. split; [|apply spaced_words]. intros <-. destruct (spaced_total s) as [ws W]. rewrite (spaced_words _ _ W). exact W.
Qed.
Print Assumptions C67_words.
Lemma broken_lines s ls : broken s ls -> lines s = ls.
Proof.
  induction 1 as [|l NE NN|l r ls NN B IH]; [reflexivity| |].
  - unfold lines. assert (forall acc, lines_from acc l = match rev acc ++ l with [] => [] | x => [x] end) as K; [|rewrite K; simpl; destruct l; congruence].
    clear NE. induction l as [|c l IH]; intros acc. { simpl. rewrite app_nil_r. destruct acc as [|a acc]; auto. simpl. destruct (rev acc ++ [a]) eqn:E; auto. destruct (rev acc); discriminate. }
    simpl. destruct (Ascii.eqb c nl) eqn:E. { apply Ascii.eqb_eq in E. subst. exfalso. apply NN. left; auto. }
    rewrite IH by (intros G; apply NN; right; auto). simpl. rewrite <- app_assoc. reflexivity.
  - unfold lines. rewrite lines_from_line by exact NN. rewrite IH. reflexivity.
Qed.
Lemma broken_total s : exists ls, broken s ls.
Proof.
  remember (length s) as n eqn:E. revert s E. induction n as [n IH] using (well_founded_induction lt_wf). intros s ->.
  destruct (in_dec Ascii.ascii_dec "010"%char s) as [H|H].
  - assert (exists l r, s = l ++ "010"%char :: r /\ ~ In "010"%char l) as (l & r & -> & N).
    { clear IH. induction s as [|c s IH]; [destruct H|]. destruct (Ascii.ascii_dec c "010"%char) as [->|N]; [exists [], s; auto|]. destruct H as [->|H]; [congruence|].
      destruct (IH H) as (l & r & -> & N'). exists (c :: l), r. split; auto. intros [->|G]; [congruence|auto]. }
    destruct (IH (length r)) with (s := r) as [ls B]; auto; [rewrite app_length; simpl; lia|]. exists (l :: ls). constructor; auto.
  - destruct s as [|c s]; [exists []; constructor|]. exists [c :: s]. constructor; auto. discriminate.
Qed.
Theorem C67_lines : forall s ls, lines s = ls <-> broken s ls.
Proof.
  intros s ls. split; [|apply broken_lines]. intros <-. destruct (broken_total s) as [ls B]. rewrite (broken_lines _ _ B). exact B.
Qed.
Print Assumptions C67_lines.
Example C67_words_nonvacuous : spaced (str "  a bc") [str "a"; str "bc"] /\ broken (str "x" ++ nl :: nl :: str "yz") [str "x"; []; str "yz"].
Proof. split; [apply C67_words|apply C67_lines]; reflexivity. Qed.
