(** Text as the code reads and writes it: std::to_string, std::getline, std::istringstream and operator>>.
    Shared by the models of the file formats (PSDD files, CNF files, UAI files, data files). *)
From Coq Require Import Ascii String DecimalN.
From Verif Require Import Base.

Definition text := list ascii.
Definition str (s : string) : text := list_ascii_of_string s.
Definition nl : ascii := "010"%char.
Definition blank : ascii := " "%char.

(** ** Writing *)
Fixpoint digits (u : Decimal.uint) : text :=
  match u with
  | Decimal.Nil => []
  | Decimal.D0 u => "0"%char :: digits u
  | Decimal.D1 u => "1"%char :: digits u
  | Decimal.D2 u => "2"%char :: digits u
  | Decimal.D3 u => "3"%char :: digits u
  | Decimal.D4 u => "4"%char :: digits u
  | Decimal.D5 u => "5"%char :: digits u
  | Decimal.D6 u => "6"%char :: digits u
  | Decimal.D7 u => "7"%char :: digits u
  | Decimal.D8 u => "8"%char :: digits u
  | Decimal.D9 u => "9"%char :: digits u
  end.
(** std::to_string of unsigned and signed integers *)
Definition show_N (n : N) : text := digits (N.to_uint n).
Definition show_Z (z : Z) : text :=
  match z with Zneg p => "-"%char :: show_N (Npos p) | _ => show_N (Z.to_N z) end.

(** ** Reading lines: std::getline until it fails.  A final line without newline counts, an empty one after the
    last newline does not. *)
Fixpoint lines_from (acc : text) (s : text) : list text :=
  match s with
  | [] => match acc with [] => [] | _ => [rev acc] end
  | c :: s' => if Ascii.eqb c nl then rev acc :: lines_from [] s' else lines_from (c :: acc) s'
  end.
Definition lines (s : text) : list text := lines_from [] s.

(** line[0] of a std::string: the terminating zero if the line is empty *)
Definition head_char (s : text) : ascii := match s with c :: _ => c | [] => "000"%char end.
(** line.substr(n, npos): throws std::out_of_range when n > size *)
Definition substr (n : nat) (s : text) : res text := if Nat.ltb (length s) n then Abort else Ok (skipn n s).

(** ** Streams: remaining characters and good() *)
Definition stream := (text * bool)%type.
Definition is_space (c : ascii) : bool :=
  match c with
  | " " | "009" | "010" | "011" | "012" | "013" => true
  | _ => false
  end%char.
Fixpoint skip_ws (s : text) : text :=
  match s with
  | c :: s' => if is_space c then skip_ws s' else s
  | [] => []
  end.
Definition digit_of (c : ascii) : option (Decimal.uint -> Decimal.uint) :=
  match c with
  | "0" => Some Decimal.D0 | "1" => Some Decimal.D1 | "2" => Some Decimal.D2 | "3" => Some Decimal.D3
  | "4" => Some Decimal.D4 | "5" => Some Decimal.D5 | "6" => Some Decimal.D6 | "7" => Some Decimal.D7
  | "8" => Some Decimal.D8 | "9" => Some Decimal.D9 | _ => None
  end%char.
Fixpoint take_digits (s : text) : Decimal.uint * text :=
  match s with
  | c :: s' =>
      match digit_of c with
      | Some d => let '(u, r) := take_digits s' in (d u, r)
      | None => (Decimal.Nil, s)
      end
  | [] => (Decimal.Nil, [])
  end.

Definition is_nil (u : Decimal.uint) : bool := match u with Decimal.Nil => true | _ => false end.
(** operator>> into an integer with values lo..hi.  The first component is what the variable holds afterwards:
    [None] means that it was not assigned (the stream had already failed or had only blanks left); a malformed
    number assigns 0, an out-of-range one the nearest bound (C++11), and both set failbit.  Unsigned types
    accept a minus sign and negate modulo their range, as strtoull does. *)
Definition ex_int (lo hi : Z) (st : stream) : option Z * stream :=
  let '(s, good) := st in
  if negb good then (None, st) else
  match skip_ws s with
  | [] => (None, ([], false))
  | c :: s' =>
      let '(neg, body) := if Ascii.eqb c "-" then (true, s') else if Ascii.eqb c "+" then (false, s') else (false, c :: s') in
      let '(u, r) := take_digits body in
      if is_nil u then (Some 0%Z, (r, false)) else
      let v := Z.of_N (N.of_uint u) in
      let z := if neg then (- v)%Z else v in
      if (lo =? 0)%Z then
        if (hi <? v)%Z then (Some hi, (r, false)) else (Some (z mod (hi + 1))%Z, (r, true))
      else if (z <? lo)%Z then (Some lo, (r, false))
      else if (hi <? z)%Z then (Some hi, (r, false))
      else (Some z, (r, true))
  end.
Definition ex_u32 := ex_int 0 4294967295.
Definition ex_u64 := ex_int 0 18446744073709551615.
Definition ex_i32 := ex_int (-2147483648) 2147483647.

(** operator>> into a double: the characters up to the next blank are given to [rd].  (The library stops at the
    first character that cannot continue a number; the difference shows only when a number is followed
    immediately by something else.)  [zero] is what a failed conversion leaves. *)
Fixpoint take_word (s : text) : text * text :=
  match s with
  | c :: s' => if is_space c then ([], s) else let '(w, r) := take_word s' in (c :: w, r)
  | [] => ([], [])
  end.
Definition ex_word {A} (rd : text -> option A) (zero : A) (st : stream) : option A * stream :=
  let '(s, good) := st in
  if negb good then (None, st) else
  match skip_ws s with
  | [] => (None, ([], false))
  | s' => let '(w, r) := take_word s' in
          match rd w with Some a => (Some a, (r, true)) | None => (Some zero, (r, false)) end
  end.

(** * Facts *)
Definition no_nl (s : text) : Prop := ~ In nl s.
Lemma lines_from_line l : forall acc rest, no_nl l -> lines_from acc (l ++ nl :: rest) = (rev acc ++ l) :: lines rest.
Proof.
  induction l as [|c l IH]; intros acc rest H; simpl.
  - rewrite app_nil_r. reflexivity.
  - destruct (Ascii.eqb c nl) eqn:E. { apply Ascii.eqb_eq in E. subst. exfalso. apply H. left; auto. }
    rewrite IH by (intros G; apply H; right; auto). simpl. rewrite <- app_assoc. reflexivity.
Qed.
Definition unlines (ls : list text) : text := concat (map (fun l => l ++ [nl]) ls).
Lemma lines_unlines ls : Forall no_nl ls -> lines (unlines ls) = ls.
Proof.
  induction 1 as [|l ls H F IH]; [reflexivity|]. unfold unlines in *. simpl. rewrite <- app_assoc. simpl.
  unfold lines. rewrite lines_from_line by auto. simpl. rewrite IH. reflexivity.
Qed.
Lemma unlines_app a b : unlines (a ++ b) = unlines a ++ unlines b.
Proof. unfold unlines. rewrite map_app, concat_app. reflexivity. Qed.

Definition nodig (s : text) : Prop := match s with c :: _ => digit_of c = None | [] => True end.
Lemma take_digits_app u : forall rest, nodig rest -> take_digits (digits u ++ rest) = (u, rest).
Proof.
  induction u; intros rest H; simpl; try (rewrite IHu by auto; reflexivity).
  destruct rest as [|c rest]; simpl in *; auto. rewrite H. reflexivity.
Qed.
Definition plain (c : ascii) : Prop := is_space c = false.
Lemma digits_plain u : Forall plain (digits u).
Proof. induction u; simpl; constructor; auto; reflexivity. Qed.
Lemma plain_no_nl s : Forall plain s -> no_nl s.
Proof. intros F H. rewrite Forall_forall in F. apply F in H. discriminate. Qed.
Lemma to_uint_not_nil n : N.to_uint n <> Decimal.Nil.
Proof.
  intros E. pose proof (DecimalN.Unsigned.of_to n) as H. rewrite E in H. simpl in H. subst n. discriminate.
Qed.
Lemma show_N_plain n : Forall plain (show_N n).
Proof. apply digits_plain. Qed.
Lemma show_Z_plain z : Forall plain (show_Z z).
Proof. destruct z; simpl; try apply show_N_plain. constructor; [reflexivity|apply show_N_plain]. Qed.
Lemma digits_head u : u <> Decimal.Nil -> exists c s, digits u = c :: s /\ plain c /\ Ascii.eqb c "-" = false /\ Ascii.eqb c "+" = false.
Proof. intros H. destruct u; try congruence; simpl; eexists; eexists; (split; [reflexivity|]); repeat split. Qed.
Lemma skip_ws_blank s : skip_ws (blank :: s) = skip_ws s.
Proof. reflexivity. Qed.
Lemma skip_ws_plain c s : plain c -> skip_ws (c :: s) = c :: s.
Proof. unfold plain. simpl. intros ->. reflexivity. Qed.

(** A number written in decimal and followed by a non-digit is read back. *)
Lemma show_N_head n : exists c s, show_N n = c :: s /\ plain c /\ Ascii.eqb c "-" = false /\ Ascii.eqb c "+" = false.
Proof. apply digits_head, to_uint_not_nil. Qed.
Lemma is_nil_to_uint n : is_nil (N.to_uint n) = false.
Proof. pose proof (to_uint_not_nil n). destruct (N.to_uint n); auto; congruence. Qed.
Lemma ex_int_N lo hi n rest : (lo <= 0)%Z -> (Z.of_N n <= hi)%Z -> nodig rest ->
  ex_int lo hi (blank :: show_N n ++ rest, true) = (Some (Z.of_N n), (rest, true)).
Proof.
  intros HL HH HR. unfold ex_int. cbn [negb]. rewrite skip_ws_blank.
  destruct (show_N_head n) as (c & s & E & PL & E1 & E2).
  rewrite E. cbn [app]. rewrite skip_ws_plain by auto. rewrite E1, E2. cbv iota beta.
  change (c :: s ++ rest) with ((c :: s) ++ rest). rewrite <- E. unfold show_N. rewrite take_digits_app by auto.
  rewrite is_nil_to_uint, DecimalN.Unsigned.of_to. cbv zeta.
  destruct (Z.eqb_spec lo 0) as [E0|E0].
  - destruct (Z.ltb_spec hi (Z.of_N n)); [lia|]. rewrite Z.mod_small by lia. reflexivity.
  - destruct (Z.ltb_spec (Z.of_N n) lo); [lia|]. destruct (Z.ltb_spec hi (Z.of_N n)); [lia|]. reflexivity.
Qed.
Lemma ex_int_Z lo hi z rest : (lo < 0)%Z -> (lo <= z <= hi)%Z -> nodig rest ->
  ex_int lo hi (blank :: show_Z z ++ rest, true) = (Some z, (rest, true)).
Proof.
  intros HL HH HR. destruct z as [|p|p].
  - apply (ex_int_N lo hi 0); auto; simpl; lia.
  - apply (ex_int_N lo hi (Npos p)); auto; simpl; lia.
  - unfold ex_int. cbn [negb]. rewrite skip_ws_blank. cbn [show_Z app]. rewrite skip_ws_plain by reflexivity.
    cbn [Ascii.eqb Bool.eqb]. cbv iota beta. unfold show_N. rewrite take_digits_app by auto.
    rewrite is_nil_to_uint, DecimalN.Unsigned.of_to. cbv zeta.
    destruct (Z.eqb_spec lo 0); [lia|]. change (- Z.of_N (N.pos p))%Z with (Zneg p).
    destruct (Z.ltb_spec (Zneg p) lo); [lia|]. destruct (Z.ltb_spec hi (Zneg p)); [lia|]. reflexivity.
Qed.

Definition starts_blank (s : text) : Prop := match s with c :: _ => is_space c = true | [] => True end.
Lemma starts_blank_nodig s : starts_blank s -> nodig s.
Proof.
  destruct s as [|c s]; simpl; auto. intros H. destruct c as [[] [] [] [] [] [] [] []]; try discriminate; reflexivity.
Qed.
Lemma take_word_app w : forall rest, Forall plain w -> starts_blank rest -> take_word (w ++ rest) = (w, rest).
Proof.
  induction w as [|c w IH]; intros rest F H; simpl.
  - destruct rest as [|c rest]; simpl in *; auto. rewrite H. reflexivity.
  - inversion F as [|? ? F1 F2]; subst. unfold plain in F1. rewrite F1, IH by auto. reflexivity.
Qed.
Lemma ex_word_app {A} (rd : text -> option A) zero w rest : Forall plain w -> w <> [] -> starts_blank rest ->
  ex_word rd zero (blank :: w ++ rest, true) = match rd w with Some a => (Some a, (rest, true)) | None => (Some zero, (rest, false)) end.
Proof.
  intros F NE H. unfold ex_word. cbn [negb]. rewrite skip_ws_blank. destruct w as [|c w]; [congruence|].
  inversion F; subst. cbn [app]. rewrite skip_ws_plain by auto. change (c :: w ++ rest) with ((c :: w) ++ rest).
  rewrite take_word_app by auto. reflexivity.
Qed.
