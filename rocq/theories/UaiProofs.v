(** Proofs about the UAI reader. *)
From Coq Require Import Ascii String.
From Verif Require Import Base Param Text Uai.

(** ** Words of a line *)
Fixpoint words_aux (w : text) (s : text) : list text :=
  match s with
  | [] => match w with [] => [] | _ => [rev w] end
  | c :: s' => if is_space c then match w with [] => words_aux [] s' | _ => rev w :: words_aux [] s' end else words_aux (c :: w) s'
  end.
Definition words (s : text) : list text := words_aux [] s.
Lemma words_aux_eq s : forall acc, acc <> [] -> words_aux acc s = (rev acc ++ fst (take_word s)) :: words (snd (take_word s)).
Proof.
  induction s as [|c s IH]; intros acc NA; cbn [words_aux take_word].
  - destruct acc; [congruence|]. simpl fst. rewrite app_nil_r. reflexivity.
  - destruct (is_space c) eqn:E.
    + destruct acc; [congruence|]. simpl fst. rewrite app_nil_r. unfold words. cbn [snd words_aux]. rewrite E. reflexivity.
    + rewrite IH by discriminate. destruct (take_word s) as [w r]. simpl. rewrite <- app_assoc. reflexivity.
Qed.
Lemma words_eq s : words s = match skip_ws s with [] => [] | c :: s' => fst (take_word (c :: s')) :: words (snd (take_word (c :: s'))) end.
Proof.
  induction s as [|c s IH]; [reflexivity|]. unfold words. cbn [words_aux skip_ws]. destruct (is_space c) eqn:E; [exact IH|].
  rewrite words_aux_eq by discriminate. cbn [take_word]. rewrite E. destruct (take_word s) as [w r]. reflexivity.
Qed.
Lemma take_word_spec s : let '(w, r) := take_word s in s = w ++ r /\ Forall plain w /\ starts_blank r.
Proof.
  induction s as [|c s IH]; cbn [take_word].
  - split; [reflexivity|]. split; [constructor|exact I].
  - destruct (is_space c) eqn:E.
    + split; [reflexivity|]. split; [constructor|exact E].
    + destruct (take_word s) as [w r]. destruct IH as (-> & F & B). split; [reflexivity|]. split; [constructor; auto|exact B].
Qed.
Lemma skip_ws_len s : length (skip_ws s) <= length s.
Proof. induction s as [|c s IH]; simpl; auto. destruct (is_space c); simpl; lia. Qed.
Lemma skip_ws_head s c s' : skip_ws s = c :: s' -> plain c.
Proof. induction s as [|a s IH]; simpl; [discriminate|]. destruct (is_space a) eqn:E; auto. intros H. injection H as -> _. exact E. Qed.
Lemma words_nil s : words s = [] -> skip_ws s = [].
Proof. rewrite words_eq. destruct (skip_ws s); [auto|discriminate]. Qed.
Lemma words_cons s w ws : words s = w :: ws -> exists r : text, skip_ws s = w ++ r /\ w <> [] /\ Forall plain w /\ starts_blank r /\ words r = ws /\ length r < length s.
Proof.
  rewrite words_eq. destruct (skip_ws s) as [|c s'] eqn:E; [discriminate|]. pose proof (take_word_spec (c :: s')) as SP. pose proof (skip_ws_head _ _ _ E) as PC. unfold plain in PC.
  cbn [take_word] in *. rewrite PC in *. destruct (take_word s') as [w' r]. cbn [fst snd]. intros H. injection H as <- <-. destruct SP as (S1 & S2 & S3). exists r. rewrite S1.
  repeat split; auto; [discriminate|]. pose proof (skip_ws_len s) as L. rewrite E, S1 in L. simpl in L. rewrite app_length in L. lia.
Qed.
(** ** Numbers *)
Definition int_word (lo hi : Z) (w : text) (z : Z) : Prop := ex_int lo hi (w, true) = (Some z, ([], true)).
Lemma take_digits_whole b : forall u r, take_digits b = (u, []) -> nodig r -> take_digits (b ++ r) = (u, r).
Proof.
  induction b as [|c b IH]; intros u r E N; cbn [take_digits app] in *.
  - injection E as <-. destruct r as [|c r]; [reflexivity|]. simpl in N. cbn [take_digits]. rewrite N. reflexivity.
  - destruct (digit_of c) as [d|]; [|discriminate]. destruct (take_digits b) as [u' r'] eqn:EB. injection E as <- ->. rewrite (IH u' r) by auto. reflexivity.
Qed.
Lemma ex_int_word lo hi s w z r : int_word lo hi w z -> skip_ws s = w ++ r -> w <> [] -> Forall plain w -> starts_blank r -> ex_int lo hi (s, true) = (Some z, (r, true)).
Proof.
  intros IW ES NW PW SB. destruct w as [|c w]; [congruence|]. inversion PW as [|? ? P1 P2]; subst. unfold int_word, ex_int in *. cbn [negb] in *. rewrite ES. cbn [app].
  rewrite skip_ws_plain in IW by auto. apply starts_blank_nodig in SB.
  set (sg := if Ascii.eqb c "-" then _ else _) in IW.
  assert (exists neg body, sg = (neg, body) /\ (if Ascii.eqb c "-" then (true, w ++ r) else if Ascii.eqb c "+" then (false, w ++ r) else (false, c :: w ++ r)) = (neg, body ++ r)) as (neg & body & E1 & ->).
  { unfold sg. destruct (Ascii.eqb c "-"); [eauto|]. destruct (Ascii.eqb c "+"); eauto. }
  rewrite E1 in IW. clear sg E1. destruct (take_digits body) as [u rr] eqn:ET.
  assert (rr = []) as ->.
  { destruct (is_nil u); [discriminate|]. destruct (lo =? 0)%Z.
    - destruct (hi <? _)%Z; [discriminate|]. injection IW; auto.
    - destruct (_ <? lo)%Z; [discriminate|]. destruct (hi <? _)%Z; [discriminate|]. injection IW; auto. }
  rewrite (take_digits_whole body u r ET SB). destruct (is_nil u); [discriminate|]. destruct (lo =? 0)%Z.
  - destruct (hi <? _)%Z; [discriminate|]. injection IW as ->. reflexivity.
  - destruct (_ <? lo)%Z; [discriminate|]. destruct (hi <? _)%Z; [discriminate|]. injection IW as ->. reflexivity.
Qed.
Lemma show_N_word lo hi n : (lo <= 0)%Z -> (Z.of_N n <= hi)%Z -> int_word lo hi (show_N n) (Z.of_N n).
Proof.
  intros H1 H2. pose proof (ex_int_N lo hi n [] H1 H2 I) as E. rewrite app_nil_r in E. unfold int_word. unfold ex_int in *. cbn [negb] in *. rewrite skip_ws_blank in E. exact E.
Qed.

Section Reader.
Context {P : pops} (rd : text -> option P).
(** ** Scopes *)
Notation int_max := 2147483647%Z.
Definition scope_word (w : text) (v : N) : Prop := (1 <= v)%N /\ (Z.of_N v <= int_max)%Z /\ int_word (-2147483648) int_max w (Z.of_N v - 1).
Lemma read_scope_spec ws vs : Forall2 scope_word ws vs -> forall s fuel, words s = ws -> length s < fuel -> read_scope fuel (s, true) = Ok vs.
Proof.
  induction 1 as [|w v ws vs (V1 & V2 & IW) F IH]; intros s fuel E L; (destruct fuel as [|f]; [lia|]); cbn [read_scope]; unfold ex_i32.
  - apply words_nil in E. unfold ex_int. cbn [negb]. rewrite E. reflexivity.
  - apply words_cons in E as (r & E1 & E2 & E3 & E4 & E5 & E6). rewrite (ex_int_word _ _ s w _ r IW E1 E2 E3 E4). cbn [snd]. rewrite (proj2 (Z.eqb_neq _ _)) by lia.
        assert (read_scope f (r, true) = Ok vs) as HR by (apply IH; auto; lia). unfold stream, text in *. rewrite HR. cbn [bind]. rewrite Z.mod_small by lia. do 2 f_equal. lia.
Qed.
(** A line: the number of variables (ignored), then their indices from 0 *)
Definition scope_line (l : text) (vs : list N) : Prop := exists w z ws, words l = w :: ws /\ int_word (-2147483648) int_max w z /\ Forall2 scope_word ws vs.
Lemma scope_line_spec l vs : scope_line l vs -> scope_of_line l = Ok vs.
Proof.
  intros (w & z & ws & E & IW & F). apply words_cons in E as (r & E1 & E2 & E3 & E4 & E5 & E6). unfold scope_of_line, ex_i32. rewrite (ex_int_word _ _ l w _ r IW E1 E2 E3 E4).
  apply (read_scope_spec ws vs F); auto.
Qed.
(** ** Entries *)
Definition entry_words (ws : list text) (ps : list P) : Prop := Forall2 (fun w p => rd w = Some p) ws ps.
Lemma read_entries_spec ws ps : entry_words ws ps -> forall s fuel, words s = ws -> length s < fuel -> read_entries rd fuel (s, true) = ps.
Proof.
  induction 1 as [|w p ws ps E0 F IH]; intros s fuel E L; (destruct fuel as [|f]; [lia|]); cbn [read_entries]; unfold ex_word; cbn [negb].
  - apply words_nil in E. rewrite E. reflexivity.
  - apply words_cons in E as (r & E1 & E2 & E3 & E4 & E5 & E6). rewrite E1. destruct w as [|c w]; [congruence|]. cbn [app]. change (c :: w ++ r) with ((c :: w) ++ r).
    rewrite take_word_app by auto. rewrite E0. cbn [option_map]. f_equal. apply IH; auto. lia.
Qed.
Lemma entries_spec s ps : entry_words (words s) ps -> entries rd s = ps.
Proof. intros F. unfold entries. apply (read_entries_spec _ _ F); auto. Qed.

(** ** Lines *)
(** [feeds ls st]: the next lines of the stream are [ls]; the last one may lack its newline *)
Inductive feeds : list text -> stream -> Prop :=
| feeds_nil st : feeds [] st
| feeds_cons l ls s : no_nl l -> feeds ls (s, true) -> feeds (l :: ls) (l ++ nl :: s, true)
| feeds_last l : no_nl l -> feeds [l] (l, true).
Lemma cut_line_app l : forall s, no_nl l -> cut_line (l ++ nl :: s) = Some (l, s).
Proof.
  induction l as [|c l IH]; intros s H; cbn [cut_line app]; [reflexivity|]. rewrite (proj2 (Ascii.eqb_neq c nl)) by (intros ->; apply H; left; auto).
  rewrite IH by (intros G; apply H; right; auto). reflexivity.
Qed.
Lemma cut_line_none l : no_nl l -> cut_line l = None.
Proof.
  induction l as [|c l IH]; intros H; cbn [cut_line]; [reflexivity|]. rewrite (proj2 (Ascii.eqb_neq c nl)) by (intros ->; apply H; left; auto).
  rewrite IH by (intros G; apply H; right; auto). reflexivity.
Qed.
Lemma getline_feeds l ls st buf : feeds (l :: ls) st -> exists st', getline st buf = (l, st') /\ feeds ls st'.
Proof.
  intros F. inversion F; subst; unfold getline; cbn [negb].
  - rewrite cut_line_app by auto. eauto.
  - rewrite cut_line_none by auto. eexists. split; [reflexivity|constructor].
Qed.
Lemma feeds_app_inv ls1 : forall ls2 st, feeds (ls1 ++ ls2) st -> feeds ls1 st.
Proof. induction ls1 as [|l ls1 IH]; intros ls2 st F; [constructor|]. cbn [app] in F. inversion F; subst; [constructor; eauto|]. destruct ls1; [constructor; auto|discriminate]. Qed.

Lemma read_scopes_spec ls vss : Forall2 scope_line ls vss -> forall ls' st buf, feeds (ls ++ ls') st ->
  exists buf' st', read_scopes (length ls) st buf = Ok (vss, (buf', st')) /\ feeds ls' st'.
Proof.
  induction 1 as [|l vs ls vss H F IH]; intros ls' st buf FD; cbn [length read_scopes app] in *.
  - eauto.
  - destruct (getline_feeds _ _ _ buf FD) as (st1 & -> & FD1). rewrite (scope_line_spec l vs H). cbn [bind]. destruct (IH ls' st1 l FD1) as (b' & st' & -> & FD'). cbn [bind]. eauto.
Qed.
(** The lines after the first of a table: [n] entries are still to come *)
Inductive entry_lines : nat -> list text -> list P -> Prop :=
| el_done : entry_lines 0 [] []
| el_line n l ls ps1 ps2 : 0 < n -> entry_words (words l) ps1 -> length ps1 <= n -> entry_lines (n - length ps1) ls ps2 -> entry_lines n (l :: ls) (ps1 ++ ps2).
Definition max_entries : N := 1152921504606846975.
(** A table: empty lines, the number of entries and the entries, over any number of lines *)
Inductive table_lines : list text -> list P -> Prop :=
| tl_empty ls ps : table_lines ls ps -> table_lines ([] :: ls) ps
| tl_table l ls w ws n ps1 ps2 : words l = w :: ws -> int_word 0 18446744073709551615 w (Z.of_nat n) -> 0 < n -> (N.of_nat n <= max_entries)%N -> entry_words ws ps1 -> length ps1 <= n ->
    entry_lines (n - length ps1) ls ps2 -> table_lines (l :: ls) (ps1 ++ ps2).
Lemma entry_lines_len n ls ps : entry_lines n ls ps -> length ps = n.
Proof. induction 1; auto. rewrite app_length. lia. Qed.
Lemma more_entries_done fuel n ps st buf : length ps = n -> more_entries rd fuel (N.of_nat n) ps st buf = Ok (ps, (buf, st)).
Proof. intros H. destruct fuel; cbn [more_entries]; rewrite (proj2 (N.ltb_ge _ _)) by lia; reflexivity. Qed.
Lemma more_entries_spec n ls ps : entry_lines n ls ps -> forall fuel ps0 ls' st buf, length ls <= fuel -> feeds (ls ++ ls') st ->
  exists buf' st', more_entries rd fuel (N.of_nat (length ps0 + n)) ps0 st buf = Ok (ps0 ++ ps, (buf', st')) /\ feeds ls' st'.
Proof.
  induction 1 as [|n l ls ps1 ps2 N0 EW LE EL IH]; intros fuel ps0 ls' st buf HF FD.
  - rewrite Nat.add_0_r, app_nil_r, more_entries_done by auto. eauto.
  - simpl in HF. destruct fuel as [|f]; [lia|]. cbn [more_entries]. rewrite (proj2 (N.ltb_lt _ _)) by lia. cbn [app] in FD. destruct (getline_feeds _ _ _ buf FD) as (st1 & -> & FD1).
    rewrite (entries_spec l ps1 EW). destruct (IH f (ps0 ++ ps1) ls' st1 l) as (b' & st' & E & FD'); auto; [lia|].
    rewrite app_length in E. replace (length ps0 + length ps1 + (n - length ps1)) with (length ps0 + n) in E by lia. rewrite E, <- app_assoc. eauto.
Qed.
Lemma read_table_spec ls ps : table_lines ls ps -> forall fuel ls' st buf, length ls <= fuel -> feeds (ls ++ ls') st ->
  exists buf' st', read_table rd fuel st buf = Ok (ps, (buf', st')) /\ feeds ls' st'.
Proof.
  intros T. assert (exists k l ls1 w ws n ps1 ps2, ls = repeat [] k ++ l :: ls1 /\ ps = ps1 ++ ps2 /\ words l = w :: ws /\ int_word 0 18446744073709551615 w (Z.of_nat n) /\ 0 < n /\
    (N.of_nat n <= max_entries)%N /\ entry_words ws ps1 /\ length ps1 <= n /\ entry_lines (n - length ps1) ls1 ps2) as (k & l & ls1 & w & ws & n & ps1 & ps2 & -> & -> & W & IW & N0 & NM & EW & LE & EL).
  { induction T as [ls ps T (k & l & ls1 & w & ws & n & ps1 & ps2 & E & R)|l ls w ws n ps1 ps2 W IW N0 NM EW LE EL].
    - exists (S k), l, ls1, w, ws, n, ps1, ps2. rewrite E. auto.
    - exists 0, l, ls, w, ws, n, ps1, ps2. auto 12. }
  intros fuel ls' st buf HF FD. unfold read_table. rewrite <- app_assoc in FD. cbn [app] in FD. rewrite app_length, repeat_length in HF. simpl in HF.
  assert (forall k' fuel' st' buf', k' < fuel' -> feeds (repeat [] k' ++ l :: ls1 ++ ls') st' -> exists st'', next_line fuel' st' buf' = Ok (l, st'') /\ feeds (ls1 ++ ls') st'') as NL.
  { clear -W. induction k' as [|k' IH]; intros fuel' st' buf' HF FD; (destruct fuel' as [|f]; [lia|]); cbn [next_line repeat app] in *; destruct (getline_feeds _ _ _ buf' FD) as (st1 & -> & FD1).
    - destruct l; [discriminate|]. eauto.
    - apply IH; auto. lia. }
  destruct (NL k fuel st buf ltac:(lia) FD) as (st1 & -> & FD1). cbn [bind]. apply words_cons in W as (r & E1 & E2 & E3 & E4 & E5 & E6).
  unfold ex_u64. rewrite (ex_int_word _ _ l w _ r IW E1 E2 E3 E4). cbn [bind fst snd]. rewrite (proj2 (Z.ltb_ge _ _)) by (unfold max_entries in *; lia). cbn [bind].
  rewrite (entries_spec r ps1) by (rewrite E5; auto). assert (length ls1 <= fuel) as HL by (clear -HF; simpl in HF; unfold text in *; lia). destruct (more_entries_spec (n - length ps1) ls1 ps2 EL fuel ps1 ls' st1 l HL FD1) as (b' & st' & E & FD').
  replace (length ps1 + (n - length ps1)) with n in E by lia. replace (Z.to_N (Z.of_nat n)) with (N.of_nat n) by lia. rewrite E. cbn [bind].
  pose proof (entry_lines_len _ _ _ EL) as LL. rewrite (proj2 (N.eqb_eq _ _)) by (rewrite app_length; lia). rewrite (proj2 (N.eqb_neq _ _)) by lia. cbn [assert bind negb]. eauto.
Qed.
Lemma read_tables_spec lss pss : Forall2 table_lines lss pss -> forall fuel ls' st buf, length (concat lss) <= fuel -> feeds (concat lss ++ ls') st ->
  read_tables rd fuel (length lss) st buf = Ok pss.
Proof.
  induction 1 as [|ls ps lss pss H F IH]; intros fuel ls' st buf HF FD; cbn [length read_tables concat] in *; [reflexivity|]. rewrite app_length in HF. rewrite <- app_assoc in FD.
  destruct (read_table_spec ls ps H fuel _ st buf ltac:(lia) FD) as (b' & st' & -> & FD'). cbn [bind fst snd]. rewrite (IH fuel ls' st' b') by (auto; lia). reflexivity.
Qed.
(** ** Files *)
Record uai_text (l1 l2 l3 l4 : text) (scs : list text) (tbs : list (list text)) (ty nv : N) (scopes : list (list N)) (tables : list (list P)) : Prop := {
  ut_type : ty = if contains (str "BAYES") l1 then 2%N else 1%N;
  ut_vars : stoi l2 = Ok (Z.of_N nv); ut_factors : stoi l4 = Ok (Z.of_nat (length scopes));
  ut_scopes : Forall2 scope_line scs scopes; ut_tables : Forall2 table_lines tbs tables; ut_len : length scopes = length tables }.
Lemma stoi_range s z : stoi s = Ok z -> (-2147483648 <= z <= 2147483647)%Z.
Proof.
  unfold stoi. destruct (skip_ws s) as [|c s']; [discriminate|]. destruct (if Ascii.eqb c "-" then _ else _) as [neg body]. cbv zeta.
  match goal with |- (if ?c then _ else Ok ?w) = _ -> _ => destruct c eqn:E; [discriminate|]; intros H; injection H as <- end.
  rewrite !orb_false_iff, !Z.ltb_ge in E. lia.
Qed.
Lemma Forall2_len {A B} (R : A -> B -> Prop) l l' : Forall2 R l l' -> length l = length l'.
Proof. induction 1; simpl; auto. Qed.
Lemma read_head fuel u s l1 l2 l3 l4 ls nv nf : feeds (l1 :: l2 :: l3 :: l4 :: ls) (s, true) -> stoi l2 = Ok nv -> stoi l4 = Ok nf -> (0 <= nf)%Z -> exists st, feeds ls st /\
  read_file rd fuel u (Some s) =
  (do (scopes, x) <- read_scopes (Z.to_nat nf) st l4 ;;
   do tables <- read_tables rd fuel (Z.to_nat nf) (snd x) (fst x) ;;
   Ok {| u_vars := Z.to_N (nv mod 18446744073709551616)%Z; u_factors := Z.to_N nf; u_type := if contains (str "BAYES") l1 then 2%N else 1%N;
        u_scopes := u_scopes u ++ scopes; u_params := u_params u ++ tables |}).
Proof.
  intros F0 E2 E4 H. unfold read_file. destruct (getline_feeds _ _ _ [] F0) as (st1 & -> & F1). destruct (getline_feeds _ _ _ l1 F1) as (st2 & -> & F2). rewrite E2. cbn [bind].
  destruct (getline_feeds _ _ _ l2 F2) as (st3 & -> & F3). destruct (getline_feeds _ _ _ l3 F3) as (st4 & -> & F4). rewrite E4. cbn [bind]. rewrite (proj2 (Z.ltb_ge nf 0)) by auto. eauto.
Qed.
Theorem read_uai l1 l2 l3 l4 scs tbs ty nv scopes tables s fuel u : uai_text l1 l2 l3 l4 scs tbs ty nv scopes tables ->
  feeds (l1 :: l2 :: l3 :: l4 :: scs ++ concat tbs) (s, true) -> length (concat tbs) <= fuel ->
  read_file rd fuel u (Some s) = Ok {| u_vars := nv; u_factors := N.of_nat (length scopes); u_type := ty; u_scopes := u_scopes u ++ scopes; u_params := u_params u ++ tables |}.
Proof.
  intros [U1 U2 U3 U4 U5 U6] FD HF. destruct (read_head fuel u s _ _ _ _ _ _ _ FD U2 U3 ltac:(lia)) as (st & F & ->). pose proof (stoi_range _ _ U2) as RV. rewrite Nat2Z.id.
  rewrite <- (Forall2_len _ _ _ U4). rewrite <- (app_nil_r (concat tbs)) in F. destruct (read_scopes_spec scs scopes U4 _ _ l4 F) as (b' & st' & -> & F'). cbn [bind fst snd].
  rewrite (Forall2_len _ _ _ U4), U6, <- (Forall2_len _ _ _ U5). rewrite (read_tables_spec tbs tables U5 fuel [] st' b') by auto. cbn [bind].
  rewrite Z.mod_small by lia. rewrite N2Z.id, U1, (Forall2_len _ _ _ U5), <- U6. do 2 f_equal. lia.
Qed.

(** ** Truncated files *)
(** exactly these lines, each with its newline *)
Definition at_end (st : stream) : Prop := fst st = [].
Inductive feeds_all : list text -> stream -> Prop :=
| fa_nil : feeds_all [] ([], true)
| fa_cons l ls s : no_nl l -> feeds_all ls (s, true) -> feeds_all (l :: ls) (l ++ nl :: s, true).
Lemma feeds_all_unlines ls : Forall no_nl ls -> feeds_all ls (unlines ls, true).
Proof. induction 1 as [|l ls H F IH]; [constructor|]. unfold unlines in *. cbn [map concat]. rewrite <- app_assoc. constructor; auto. Qed.
Lemma feeds_all_unfold ls st : feeds_all ls st -> feeds ls st.
Proof. induction 1; constructor; auto. Qed.
Lemma getline_all l ls st buf : feeds_all (l :: ls) st -> exists st', getline st buf = (l, st') /\ feeds_all ls st'.
Proof. intros F. inversion F; subst. unfold getline. cbn [negb]. rewrite cut_line_app by auto. eauto. Qed.
Lemma next_line_end fuel : forall b buf, b = true \/ buf = [] -> next_line fuel ([], b) buf = NoFuel.
Proof.
  induction fuel as [|f IH]; intros b buf H; [reflexivity|]. cbn [next_line]. unfold getline. destruct b; cbn [negb cut_line].
  - apply IH. auto.
  - destruct H as [H| ->]; [discriminate|]. apply IH. auto.
Qed.
Lemma more_entries_end fuel : forall n ps b buf, b = true \/ buf = [] -> (N.of_nat (length ps) < n)%N -> more_entries rd fuel n ps ([], b) buf = NoFuel.
Proof.
  induction fuel as [|f IH]; intros n ps b buf H L; cbn [more_entries]; rewrite (proj2 (N.ltb_lt _ _)) by auto; [reflexivity|].
  assert (entries rd [] = []) as E0 by reflexivity. unfold getline. destruct b; cbn [negb cut_line].
  - rewrite E0, app_nil_r. apply IH; auto.
  - destruct H as [H| ->]; [discriminate|]. rewrite E0, app_nil_r. apply IH; auto.
Qed.
Lemma read_scopes_all ls vss : Forall2 scope_line ls vss -> forall ls' st buf, feeds_all (ls ++ ls') st ->
  exists buf' st', read_scopes (length ls) st buf = Ok (vss, (buf', st')) /\ feeds_all ls' st'.
Proof.
  induction 1 as [|l vs ls vss H F IH]; intros ls' st buf FD; cbn [length read_scopes app] in *; [eauto|].
  destruct (getline_all _ _ _ buf FD) as (st1 & -> & FD1). rewrite (scope_line_spec l vs H). cbn [bind]. destruct (IH ls' st1 l FD1) as (b' & st' & -> & FD'). cbn [bind]. eauto.
Qed.
Lemma next_line_all k l ls st : forall fuel buf, feeds_all (repeat [] k ++ l :: ls) st -> l <> [] ->
  next_line fuel st buf = NoFuel \/ exists st', next_line fuel st buf = Ok (l, st') /\ feeds_all ls st'.
Proof.
  revert st. induction k as [|k IH]; intros st fuel buf FD NL; (destruct fuel as [|f]; [left; reflexivity|]); cbn [next_line repeat app] in *;
    destruct (getline_all _ _ _ buf FD) as (st1 & -> & FD1).
  - destruct l; [congruence|]. right. eauto.
  - apply IH; auto.
Qed.
Lemma next_line_blank k st : forall fuel buf, feeds_all (repeat [] k) st -> next_line fuel st buf = NoFuel.
Proof.
  revert st. induction k as [|k IH]; intros st fuel buf FD; (destruct fuel as [|f]; [reflexivity|]); cbn [repeat] in FD.
  - inversion FD; subst. apply next_line_end. auto.
  - cbn [next_line]. destruct (getline_all _ _ _ buf FD) as (st1 & -> & FD1). apply IH; auto.
Qed.
(** The end of the file comes before the table is complete *)
Inductive cut_entries : nat -> list text -> Prop :=
| ce_end n : 0 < n -> cut_entries n []
| ce_line n l ls ps : entry_words (words l) ps -> length ps < n -> cut_entries (n - length ps) ls -> cut_entries n (l :: ls).
Inductive cut_table : list text -> Prop :=
| ct_none : cut_table []
| ct_empty ls : cut_table ls -> cut_table ([] :: ls)
| ct_table l ls w ws n ps : words l = w :: ws -> int_word 0 18446744073709551615 w (Z.of_nat n) -> (N.of_nat n <= max_entries)%N -> entry_words ws ps -> length ps < n ->
    cut_entries (n - length ps) ls -> cut_table (l :: ls).
Lemma more_entries_cut n ls : cut_entries n ls -> forall fuel ps st buf, feeds_all ls st -> more_entries rd fuel (N.of_nat (length ps + n)) ps st buf = NoFuel.
Proof.
  induction 1 as [n H|n l ls qs EW LE CE IH]; intros fuel ps st buf FD.
  - inversion FD; subst. apply more_entries_end; auto. lia.
  - destruct fuel as [|f]; cbn [more_entries]; rewrite (proj2 (N.ltb_lt _ _)) by lia; [reflexivity|]. destruct (getline_all _ _ _ buf FD) as (st1 & -> & FD1).
    rewrite (entries_spec l qs EW). specialize (IH f (ps ++ qs) st1 l FD1). rewrite app_length in IH. replace (length ps + length qs + (n - length qs)) with (length ps + n) in IH by lia. exact IH.
Qed.
Lemma read_table_cut ls : cut_table ls -> forall fuel st buf, feeds_all ls st -> read_table rd fuel st buf = NoFuel.
Proof.
  intros C. assert (exists k ls1, ls = repeat [] k ++ ls1 /\ (ls1 = [] \/ exists l ls2 w ws n ps, ls1 = l :: ls2 /\ words l = w :: ws /\ int_word 0 18446744073709551615 w (Z.of_nat n) /\
    (N.of_nat n <= max_entries)%N /\ entry_words ws ps /\ length ps < n /\ cut_entries (n - length ps) ls2)) as (k & ls1 & -> & D).
  { induction C as [|ls C (k & ls1 & -> & D)|l ls w ws n ps W IW NM EW LE CE].
    - exists 0, []. auto.
    - exists (S k), ls1. auto.
    - exists 0, (l :: ls). split; auto. right. exists l, ls, w, ws, n, ps. auto 9. }
  intros fuel st buf FD. unfold read_table. destruct D as [->|(l & ls2 & w & ws & n & ps & -> & W & IW & NM & EW & LE & CE)].
  - rewrite app_nil_r in FD. rewrite (next_line_blank k) by auto. reflexivity.
  - destruct (next_line_all k l ls2 st fuel buf FD) as [->|(st1 & -> & FD1)]; [intros ->; discriminate|reflexivity|]. cbn [bind].
    apply words_cons in W as (r & E1 & E2 & E3 & E4 & E5 & E6). unfold ex_u64. rewrite (ex_int_word _ _ l w _ r IW E1 E2 E3 E4). cbn [bind fst snd].
    rewrite (proj2 (Z.ltb_ge _ _)) by (unfold max_entries in *; lia). cbn [bind]. rewrite (entries_spec r ps) by (rewrite E5; auto).
    pose proof (more_entries_cut _ _ CE fuel ps st1 l FD1) as M. replace (length ps + (n - length ps)) with n in M by lia. replace (Z.to_N (Z.of_nat n)) with (N.of_nat n) by lia.
    rewrite M. reflexivity.
Qed.
Lemma read_table_all ls ps : table_lines ls ps -> forall fuel ls' st buf, feeds_all (ls ++ ls') st ->
  read_table rd fuel st buf = NoFuel \/ exists buf' st', read_table rd fuel st buf = Ok (ps, (buf', st')) /\ feeds_all ls' st'.
Proof.
  intros T. assert (exists k l ls1 w ws n ps1 ps2, ls = repeat [] k ++ l :: ls1 /\ ps = ps1 ++ ps2 /\ words l = w :: ws /\ int_word 0 18446744073709551615 w (Z.of_nat n) /\ 0 < n /\
    (N.of_nat n <= max_entries)%N /\ entry_words ws ps1 /\ length ps1 <= n /\ entry_lines (n - length ps1) ls1 ps2) as (k & l & ls1 & w & ws & n & ps1 & ps2 & -> & -> & W & IW & N0 & NM & EW & LE & EL).
  { induction T as [ls ps T (k & l & ls1 & w & ws & n & ps1 & ps2 & E & R)|l ls w ws n ps1 ps2 W IW N0 NM EW LE EL].
    - exists (S k), l, ls1, w, ws, n, ps1, ps2. rewrite E. auto.
    - exists 0, l, ls, w, ws, n, ps1, ps2. auto 12. }
  intros fuel ls' st buf FD. unfold read_table. rewrite <- app_assoc in FD. cbn [app] in FD.
  destruct (next_line_all k l (ls1 ++ ls') st fuel buf FD) as [->|(st1 & -> & FD1)]; [intros ->; discriminate|left; reflexivity|]. cbn [bind].
  apply words_cons in W as (r & E1 & E2 & E3 & E4 & E5 & E6). unfold ex_u64. rewrite (ex_int_word _ _ l w _ r IW E1 E2 E3 E4). cbn [bind fst snd].
  rewrite (proj2 (Z.ltb_ge _ _)) by (unfold max_entries in *; lia). cbn [bind]. rewrite (entries_spec r ps1) by (rewrite E5; auto). replace (Z.to_N (Z.of_nat n)) with (N.of_nat n) by lia.
  assert (forall m ls0 qs, entry_lines m ls0 qs -> forall fuel ps0 st buf, feeds_all (ls0 ++ ls') st -> more_entries rd fuel (N.of_nat (length ps0 + m)) ps0 st buf = NoFuel \/
    exists buf' st', more_entries rd fuel (N.of_nat (length ps0 + m)) ps0 st buf = Ok (ps0 ++ qs, (buf', st')) /\ feeds_all ls' st') as ME.
  { induction 1 as [|m l0 ls0 qs1 qs2 M0 MW ML EL0 IH]; intros f ps0 st0 buf0 FD0.
    - right. rewrite Nat.add_0_r, app_nil_r, more_entries_done by auto. eauto.
    - destruct f as [|f]; cbn [more_entries]; rewrite (proj2 (N.ltb_lt _ _)) by lia; [left; reflexivity|]. cbn [app] in FD0. destruct (getline_all _ _ _ buf0 FD0) as (st2 & -> & FD2).
      rewrite (entries_spec l0 qs1 MW). specialize (IH f (ps0 ++ qs1) st2 l0 FD2). rewrite app_length in IH. replace (length ps0 + length qs1 + (m - length qs1)) with (length ps0 + m) in IH by lia.
      rewrite <- app_assoc in IH. exact IH. }
  specialize (ME _ _ _ EL fuel ps1 st1 l FD1). replace (length ps1 + (n - length ps1)) with n in ME by lia. destruct ME as [->|(b' & st' & -> & FD')]; [left; reflexivity|]. right. cbn [bind].
  pose proof (entry_lines_len _ _ _ EL) as LL. rewrite (proj2 (N.eqb_eq _ _)) by (rewrite app_length; lia). rewrite (proj2 (N.eqb_neq _ _)) by lia. cbn [assert bind negb]. eauto.
Qed.
(** A file that ends, after a newline, before its last table is complete: the reader never stops *)
Theorem truncated_loops l1 l2 l3 l4 scs tbs tl nv scopes tables s fuel u : stoi l2 = Ok nv -> stoi l4 = Ok (Z.of_nat (length scopes)) -> Forall2 scope_line scs scopes ->
  Forall2 table_lines tbs tables -> length tables < length scopes -> cut_table tl -> Forall no_nl (l1 :: l2 :: l3 :: l4 :: scs ++ concat tbs ++ tl) ->
  s = unlines (l1 :: l2 :: l3 :: l4 :: scs ++ concat tbs ++ tl) -> read_file rd fuel u (Some s) = NoFuel.
Proof.
  intros E2 E4 FS FT LT CT NN ->. pose proof (feeds_all_unlines _ NN) as FD.
  unfold read_file. destruct (getline_all _ _ _ [] FD) as (st1 & -> & F1). destruct (getline_all _ _ _ l1 F1) as (st2 & -> & F2). rewrite E2. cbn [bind].
  destruct (getline_all _ _ _ l2 F2) as (st3 & -> & F3). destruct (getline_all _ _ _ l3 F3) as (st4 & -> & F4). rewrite E4. cbn [bind]. rewrite (proj2 (Z.ltb_ge _ 0)) by lia.
  rewrite Nat2Z.id. rewrite <- (Forall2_len _ _ _ FS) at 1. destruct (read_scopes_all scs scopes FS _ _ l4 F4) as (b' & st' & -> & F'). cbn [bind fst snd].
  clear -FT LT CT F'. assert (read_tables rd fuel (length scopes) st' b' = NoFuel) as ->; [|reflexivity].
  revert st' b' F' LT. generalize (length scopes) as n. induction FT as [|ls ps tbs tables H F IH]; intros n st' b' FD LT; simpl in LT.
  - destruct n as [|n]; [lia|]. cbn [read_tables]. cbn [concat app] in FD. rewrite (read_table_cut tl) by auto. reflexivity.
  - destruct n as [|n]; [lia|]. cbn [read_tables]. cbn [concat] in FD. rewrite <- app_assoc in FD. destruct (read_table_all ls ps H fuel _ st' b' FD) as [->|(b2 & st2 & -> & F2)]; [reflexivity|].
    cbn [bind fst snd]. rewrite (IH n st2 b2) by (auto; lia). reflexivity.
Qed.
(** A missing file *)
Theorem missing_uai fuel u : read_file rd fuel u None = Abort.
Proof. reflexivity. Qed.
End Reader.
