(** Proofs about the CSV parser. *)
From Coq Require Import Ascii String.
From Verif Require Import Base Text Csv.
Local Open Scope N_scope.

Definition big : N := 1000000000.
Lemma lenN_cons {A} (a : A) l : lenN (a :: l) = lenN l + 1.
Proof. unfold lenN. simpl length. lia. Qed.
Lemma lenN_app {A} (l l' : list A) : lenN (l ++ l') = lenN l + lenN l'.
Proof. unfold lenN. rewrite app_length. lia. Qed.
Lemma lenN_rev {A} (l : list A) : lenN (rev l) = lenN l.
Proof. unfold lenN. rewrite rev_length. lia. Qed.
Lemma cstring_len s : lenN (cstring s) <= lenN s.
Proof. induction s as [|c s IH]; simpl; [reflexivity|]. destruct (Ascii.eqb c nul); rewrite ?lenN_cons; unfold lenN in *; simpl; lia. Qed.

(** What holds at every turn of the loop, [it] being the number of characters read *)
Record ok_row (st : rowst) (it : N) : Prop := {
  or_cap : 64 <= r_cap st; or_buf : lenN (r_buf st) + 1 < r_cap st; or_cap_le : r_cap st <= 64 + 2 * it;
  or_realloc : r_realloc st = lenN (r_fields st) / 64; or_fcap : r_fcap st = 64 * (r_realloc st + 1);
  or_fields : lenN (r_fields st) <= it; or_len : lenN (r_buf st) <= it; or_series : r_series st <= it;
  or_odd : N.odd (r_series st) = true -> r_buf st <> [] }.
Lemma ok_start it : ok_row row_start it.
Proof. split; cbn [r_cap r_buf r_realloc r_fields r_fcap r_series row_start lenN length]; try reflexivity; try (unfold lenN; simpl length; lia). discriminate. Qed.

Definition ends (d : ascii) (eof : bool) (inside : bool) (c : ascii) : bool := eof || ((Ascii.eqb c d || Ascii.eqb c nl) && negb inside).
Definition kept (st : rowst) : text := if r_last st then tl (r_buf st) else r_buf st.
Lemma d64 n : exists k r, n / 64 = k /\ n mod 64 = r /\ n = 64 * k + r /\ r < 64.
Proof. exists (n/64), (n mod 64). pose proof (N.mod_upper_bound n 64 ltac:(discriminate)). pose proof (N.div_mod' n 64). auto. Qed.
Definition same_row (st st' : rowst) : Prop := r_fields st' = r_fields st /\ r_inside st' = r_inside st /\ r_series st' = r_series st.
(** A new field after [field] *)
Definition next_field (st : rowst) (field : text) (st' : rowst) : Prop :=
  r_fields st' = field :: r_fields st /\ r_buf st' = [] /\ r_inside st' = false /\ r_series st' = r_series st /\ r_last st' = false.
Lemma row_store_spec d eof st it c : it + 1 <= big -> delimiter_ok d = true ->
  64 <= r_cap st -> lenN (r_buf st) + 1 < r_cap st -> r_cap st <= 64 + 2 * it -> r_realloc st = lenN (r_fields st) / 64 ->
  r_fcap st = 64 * (r_realloc st + 1) -> lenN (r_fields st) <= it -> lenN (r_buf st) <= it -> r_series st <= it + 1 ->
  if ends d eof (r_inside st) c then
    (r_last st = true /\ r_buf st = [] /\ row_store d eof st c = UB) \/
    (~ (r_last st = true /\ r_buf st = []) /\
     let field := cstring (rev (kept st)) in
     if Ascii.eqb c nl then row_store d eof st c = Ok (inr (rev (field :: r_fields st)))
     else exists st', row_store d eof st c = Ok (inl st') /\ r_fields st' = field :: r_fields st /\ r_buf st' = [] /\ r_inside st' = false /\
            r_series st' = r_series st /\ r_last st' = Ascii.eqb c quote /\ (N.odd (r_series st) = false -> ok_row st' (it + 1)))
  else exists st', row_store d eof st c = Ok (inl st') /\ r_fields st' = r_fields st /\ r_buf st' = c :: r_buf st /\ r_inside st' = r_inside st /\
            r_series st' = r_series st /\ r_last st' = Ascii.eqb c quote /\ ok_row st' (it + 1).
Proof.
  intros HI HD C1 C2 C3 C4 C5 C6 C7 C8. unfold row_store. fold (ends d eof (r_inside st) c). destruct (ends d eof (r_inside st) c).
  - destruct (r_last st && match r_buf st with [] => true | _ => false end) eqn:EB.
    + left. apply andb_prop in EB as [E1 E2]. rewrite E1. destruct (r_buf st); [|discriminate]. auto.
    + right. split. { intros [E1 E2]. rewrite E1, E2 in EB. discriminate. }
      assert ((if r_last st then match r_buf st with [] => UB | _ :: b => Ok b end else Ok (r_buf st)) = Ok (kept st)) as ->.
      { unfold kept. destruct (r_last st); auto. destruct (r_buf st); [discriminate|reflexivity]. }
      cbn [bind]. assert (lenN (kept st) <= lenN (r_buf st)) as LK.
      { unfold kept. destruct (r_last st); [|lia]. destruct (r_buf st); simpl; [reflexivity|]. rewrite lenN_cons. lia. }
      pose proof (cstring_len (rev (kept st))) as LC. rewrite lenN_rev in LC.
      rewrite (proj2 (N.ltb_lt (lenN (kept st)) (r_cap st))) by lia. cbn [bind].
      assert (lenN (r_fields st) < r_fcap st) as LF.
      { rewrite C5, C4. pose proof (N.mod_upper_bound (lenN (r_fields st)) 64 ltac:(discriminate)). pose proof (N.div_mod' (lenN (r_fields st)) 64). lia. }
      rewrite (proj2 (N.ltb_lt _ _) LF). cbn [bind]. rewrite (proj2 (N.ltb_lt (lenN (cstring (rev (kept st)))) (lenN (r_buf st) + 1))) by lia. cbn [bind].
      cbn zeta. destruct (Ascii.eqb c nl); auto.
      set (f := cstring (rev (kept st))). assert (lenN (f :: r_fields st) = lenN (r_fields st) + 1) as EN by apply lenN_cons.
      assert (exists fc rl, (if N.eqb (lenN (f :: r_fields st) mod 64) 0
        then if N.leb ((r_realloc st + 2) * 64) int_max then Ok ((r_realloc st + 2) * 64, r_realloc st + 1) else UB
        else Ok (r_fcap st, r_realloc st)) = Ok (fc, rl) /\ rl = lenN (f :: r_fields st) / 64 /\ fc = 64 * (rl + 1)) as (fc & rl & -> & E1 & E2).
      { rewrite EN, C5, C4. destruct (d64 (lenN (r_fields st))) as (k & r & -> & E1 & E2 & E3). destruct (d64 (lenN (r_fields st) + 1)) as (k' & r' & -> & -> & E2' & E3').
        destruct (N.eqb_spec r' 0) as [E|E].
        - rewrite (proj2 (N.leb_le _ _)) by (unfold int_max, big in *; lia). exists ((k + 2) * 64), (k + 1). split; auto. lia.
        - exists (64 * (k + 1)), k. split; auto. lia. }
      cbn [bind fst snd]. eexists. split; [reflexivity|]. simpl. repeat (split; [reflexivity|]). intros EO.
      split; simpl r_cap; simpl r_buf; simpl r_fields; simpl r_realloc; simpl r_fcap; simpl r_series; try (unfold lenN; simpl; lia); auto; try lia.
      congruence.
  - rewrite (proj2 (N.ltb_lt (lenN (r_buf st)) (r_cap st))) by lia. cbn [bind]. rewrite lenN_cons.
    assert (exists cap, (if N.eqb (lenN (r_buf st) + 1) (r_cap st - 1) then if N.leb (r_cap st * 2) int_max then Ok (r_cap st * 2) else UB else Ok (r_cap st)) = Ok cap /\
      64 <= cap /\ lenN (r_buf st) + 1 + 1 < cap /\ cap <= 64 + 2 * (it + 1)) as (cap & -> & K1 & K2 & K3).
    { destruct (N.eqb_spec (lenN (r_buf st) + 1) (r_cap st - 1)) as [E|E].
      - rewrite (proj2 (N.leb_le _ _)) by (unfold int_max, big in *; lia). exists (r_cap st * 2). split; auto. lia.
      - exists (r_cap st). split; auto. lia. }
    cbn [bind]. eexists. split; [reflexivity|]. simpl. repeat (split; [reflexivity|]).
    split; simpl r_cap; simpl r_buf; simpl r_fields; simpl r_realloc; simpl r_fcap; simpl r_series; rewrite ?lenN_cons; auto; try lia. discriminate.
Qed.

(** ** One character *)
Definition fresh (st : rowst) : bool := match r_buf st with [] => negb (r_last st) | _ => false end.
Lemma row_step_fresh d eof st c : fresh st = true -> Ascii.eqb c cr = false ->
  row_step d eof st c = if Ascii.eqb c quote then Ok (inl (set_quotes st [] true (r_series st) true)) else row_store d eof st c.
Proof.
  unfold fresh, row_step. intros F ->. destruct (r_buf st); [|discriminate]. destruct (r_last st); [discriminate|]. reflexivity.
Qed.
Lemma row_step_plain d eof st c : fresh st = false -> Ascii.eqb c cr = false -> Ascii.eqb c quote = false ->
  row_step d eof st c = row_store d eof (set_quotes st (r_buf st) (r_inside st) 0 (r_last st)) c.
Proof.
  unfold fresh, row_step. intros F -> ->. destruct (r_buf st); [|reflexivity]. destruct (r_last st); [reflexivity|discriminate].
Qed.
Lemma row_step_quote d st it : fresh st = false -> ok_row st it -> it + 1 <= big ->
  row_step d false st quote = row_store d false (if N.odd (r_series st) then set_quotes st (tl (r_buf st)) true (r_series st + 1) (r_last st)
                                                 else set_quotes st (r_buf st) false (r_series st + 1) (r_last st)) quote.
Proof.
  intros F O B. unfold row_step. change (Ascii.eqb quote cr) with false. change (Ascii.eqb quote quote) with true. cbn iota.
  assert (N.eqb ((r_series st + 1) mod 2) 0 = N.odd (r_series st)) as ->.
  { rewrite <- (N.bit0_mod (r_series st + 1)), N.bit0_odd, N.odd_add. destruct (N.odd (r_series st)); reflexivity. }
  pose proof (or_series _ _ O). pose proof (or_odd _ _ O) as OD.
  assert (N.leb (r_series st + 1) int_max = true) as -> by (apply N.leb_le; unfold int_max, big in *; lia). cbn [bind].
  unfold fresh in F. destruct (N.odd (r_series st)).
  - destruct (r_buf st) as [|b bs]; [exfalso; apply OD; auto|reflexivity].
  - destruct (r_buf st) as [|b bs]; [|reflexivity]. destruct (r_last st); [reflexivity|discriminate].
Qed.

(** ** Memory safety *)
Section Safe.
Context (d : ascii) (HD : delimiter_ok d = true).
Lemma delim_not : Ascii.eqb d quote = false /\ Ascii.eqb d nl = false /\ Ascii.eqb d cr = false /\ Ascii.eqb d nul = false.
Proof. unfold delimiter_ok in HD. apply negb_true_iff in HD. rewrite !orb_false_iff in HD. intuition. Qed.
Definition hanging (st : rowst) : Prop := r_last st = true /\ r_buf st = [].
Definition good_row (st : rowst) (it : N) : Prop := ok_row st it /\ (hanging st -> r_inside st = true).
Lemma ok_row_mono st it it' : it <= it' -> ok_row st it -> ok_row st it'.
Proof. intros H []. split; auto; lia. Qed.
Lemma fresh_true st : fresh st = true -> r_buf st = [] /\ r_last st = false.
Proof. unfold fresh. destruct (r_buf st); [|discriminate]. destruct (r_last st); auto; discriminate. Qed.
Lemma fresh_false st : fresh st = false -> r_buf st <> [] \/ r_last st = true.
Proof. unfold fresh. destruct (r_buf st); [|left; discriminate]. destruct (r_last st); auto; discriminate. Qed.
Ltac fields := cbn [set_quotes r_fields r_fcap r_realloc r_buf r_cap r_inside r_series r_last] in *.
Lemma step_safe st it c : good_row st it -> it + 1 <= big ->
  (exists row, row_step d false st c = Ok (inr row)) \/
  exists st', row_step d false st c = Ok (inl st') /\ good_row st' (it + 1) /\ (hanging st' -> c = quote \/ (c = cr /\ hanging st)).
Proof.
  intros [O H] B. destruct (Ascii.eqb_spec c cr) as [->|NC].
  { right. exists st. unfold row_step. rewrite Ascii.eqb_refl. split; auto. split; [split; auto; eapply ok_row_mono; [|exact O]; lia|]. auto. }
  apply Ascii.eqb_neq in NC. pose proof O as [O1 O2 O3 O4 O5 O6 O7 O8 O9]. destruct delim_not as (D1 & D2 & D3 & D4).
  destruct (fresh st) eqn:F.
  - apply fresh_true in F as F'. destruct F' as [F1 F2]. rewrite (row_step_fresh d false st c F NC). destruct (Ascii.eqb_spec c quote) as [->|NQ].
    + right. eexists. split; [reflexivity|]. split; [|auto]. split; [|auto]. split; fields; auto; try lia; rewrite F1 in *; auto; lia.
    + pose proof (row_store_spec d false st it c B HD O1 O2 O3 O4 O5 O6 O7 ltac:(lia)) as SP. destruct (ends d false (r_inside st) c) eqn:EE.
      * destruct SP as [[SP _]|[_ SP]]; [congruence|]. cbn zeta in SP. destruct (Ascii.eqb c nl) eqn:EN; [left; eauto|].
        destruct SP as (st' & E & E1 & E2 & E3 & E4 & E5 & E6). right. exists st'. split; auto. apply Ascii.eqb_neq in NQ. split.
        -- split; [|intros [HL _]; congruence]. apply E6. destruct (N.odd (r_series st)) eqn:OD; [exfalso; apply (O9 eq_refl F1)|reflexivity].
        -- intros [HL _]. congruence.
      * destruct SP as (st' & E & E1 & E2 & E3 & E4 & E5 & E6). right. exists st'. split; auto. split; [split; auto|]; intros [_ HB]; congruence.
  - destruct (Ascii.eqb_spec c quote) as [->|NQ].
    + rewrite (row_step_quote d st it F O B). right.
      set (st1 := if N.odd (r_series st) then _ else _).
      assert (r_fields st1 = r_fields st /\ r_fcap st1 = r_fcap st /\ r_realloc st1 = r_realloc st /\ r_cap st1 = r_cap st /\ lenN (r_buf st1) <= lenN (r_buf st) /\ r_series st1 = r_series st + 1) as (Q1 & Q2 & Q3 & Q4 & Q5 & Q6).
      { unfold st1. destruct (N.odd (r_series st)); fields; repeat split; try lia. destruct (r_buf st); simpl; [lia|]. rewrite lenN_cons. lia. }
      pose proof (row_store_spec d false st1 it quote B HD) as SP.
      rewrite Q1, Q2, Q3, Q4, Q6 in SP. specialize (SP O1 ltac:(lia) O3 O4 O5 O6 ltac:(lia) ltac:(lia)).
      assert (ends d false (r_inside st1) quote = false) as EE.
      { unfold ends. rewrite Ascii.eqb_sym, D1. reflexivity. }
      rewrite EE in SP. destruct SP as (st' & E & E1 & E2 & E3 & E4 & E5 & E6). exists st'. split; auto. split; [split; auto|]; intros [_ HB]; congruence.
    + apply Ascii.eqb_neq in NQ. rewrite (row_step_plain d false st c F NC NQ).
      set (st1 := set_quotes st (r_buf st) (r_inside st) 0 (r_last st)).
      pose proof (row_store_spec d false st1 it c B HD) as SP. unfold st1 in SP at 1 2 3 4 5 6 7 8 9 10 11. fields.
      specialize (SP O1 O2 O3 O4 O5 O6 O7 ltac:(lia)). change (r_inside st1) with (r_inside st) in SP.
      destruct (ends d false (r_inside st) c) eqn:EE.
      * destruct SP as [(SP1 & SP2 & _)|[_ SP]].
        { exfalso. unfold ends in EE. rewrite H in EE by (split; auto). simpl in EE. rewrite andb_false_r in EE. discriminate. }
        cbn zeta in SP. destruct (Ascii.eqb c nl) eqn:EN; [left; eauto|].
        destruct SP as (st' & E & E1 & E2 & E3 & E4 & E5 & E6). right. exists st'. split; auto. split.
        -- split; [apply E6; reflexivity|]. intros [HL _]. congruence.
        -- intros [HL _]. congruence.
      * destruct SP as (st' & E & E1 & E2 & E3 & E4 & E5 & E6). right. exists st'. split; auto. split; [split; auto|]; intros [_ HB]; congruence.
Qed.
Lemma eof_safe st it : good_row st it -> it + 1 <= big -> (hanging st /\ row_step d true st nl = UB) \/ (~ hanging st /\ exists row, row_step d true st nl = Ok (inr row)).
Proof.
  intros [O H] B. pose proof O as [O1 O2 O3 O4 O5 O6 O7 O8 O9]. destruct (fresh st) eqn:F.
  - apply fresh_true in F as F'. destruct F' as [F1 F2]. rewrite (row_step_fresh d true st nl F eq_refl). change (Ascii.eqb nl quote) with false. cbn iota.
    pose proof (row_store_spec d true st it nl B HD O1 O2 O3 O4 O5 O6 O7 ltac:(lia)) as SP. simpl ends in SP. cbn iota in SP.
    destruct SP as [[SP _]|[SP0 SP]]; [congruence|]. right. split; [exact SP0|]. eexists. exact SP.
  - rewrite (row_step_plain d true st nl F eq_refl eq_refl).
    set (st1 := set_quotes st (r_buf st) (r_inside st) 0 (r_last st)).
    pose proof (row_store_spec d true st1 it nl B HD O1 O2 O3 O4 O5 O6 O7 ltac:(simpl; lia)) as SP. simpl ends in SP. cbn iota in SP.
    destruct SP as [(S1 & S2 & S3)|[SP0 SP]]; [left; split; [split; assumption|assumption]|]. right. split; [exact SP0|]. eexists. exact SP.
Qed.
(** The text ends in a quote that opens a field *)
Definition crs (s : text) : Prop := Forall (fun c => c = cr) s.
Definition open_end (s : text) : Prop := exists pre w, s = pre ++ quote :: w /\ crs w.
Lemma row_loop_safe rest : forall st it, good_row st it -> it + lenN rest + 1 <= big -> ~ open_end rest -> ~ (hanging st /\ crs rest) ->
  exists o rest' it', row_loop d st rest it = Ok (o, rest', it') /\
    ((exists pre, rest = pre ++ rest' /\ pre <> [] /\ o <> None /\ it' = it + lenN pre) \/
     (rest' = [] /\ it' = it + lenN rest + 1 /\ (rest = [] -> r_buf st = [] -> r_fields st = [] -> o = None))).
Proof.
  induction rest as [|c rest IH]; intros st it G B NO NH; cbn [row_loop]; unfold tick.
  - change (@lenN ascii []) with 0 in *. rewrite (proj2 (N.ltb_lt it int_max)) by (unfold big, int_max in *; lia). cbn [bind].
    destruct (eof_safe st it G) as [[H _]|[_ (row & E)]]; [lia|exfalso; apply NH; split; auto; constructor|].
    assert ((r_buf st = [] /\ r_fields st = []) \/ (match r_buf st, r_fields st with [], [] => Ok (None, [], it + 1) | _, _ =>
      do x <- row_step d true st nl;; match x with inl _ => UB | inr row => Ok (Some row, [], it + 1) end end = Ok (Some row, [], it + 1) /\ ~ (r_buf st = [] /\ r_fields st = []))) as [[-> ->]|[-> NE]].
    { rewrite E. cbn [bind]. destruct (r_buf st); [destruct (r_fields st); auto|]; right; split; auto; intros [? ?]; discriminate. }
    + exists None, [], (it + 1). split; auto. right. split; auto. split; [lia|auto].
    + exists (Some row), [], (it + 1). split; auto. right. split; auto. split; [lia|]. intros _ ? ?. exfalso; apply NE; auto.
  - rewrite lenN_cons in B. rewrite (proj2 (N.ltb_lt it int_max)) by (unfold big, int_max in *; lia). cbn [bind].
    destruct (step_safe st it c G) as [(row & E)|(st' & E & G' & HH)]; [lia| |]; rewrite E; cbn [bind].
    + exists (Some row), rest, (it + 1). split; auto. left. exists [c]. repeat (split; [first [reflexivity | discriminate]|]). reflexivity.
    + destruct (IH st' (it + 1) G') as (o & rest' & it' & E' & CS); [lia| | |].
      * intros (pre & w & -> & W). apply NO. exists (c :: pre), w. auto.
      * intros [H1 H2]. destruct (HH H1) as [->|[-> H3]].
        -- apply NO. exists [], rest. auto.
        -- apply NH. split; auto. constructor; auto.
      * exists o, rest', it'. split; auto. destruct CS as [(pre & -> & P1 & P2 & ->)|(-> & -> & _)].
        -- left. exists (c :: pre). split; auto. split; [discriminate|]. split; auto. rewrite lenN_cons. lia.
        -- right. split; auto. rewrite lenN_cons. split; [lia|]. discriminate.
Qed.
Lemma good_start it : good_row row_start it.
Proof. split; [apply ok_start|]. intros [H _]. discriminate. Qed.
Theorem rows_safe : forall fuel p rest, p_src p = SFile rest -> p_delim p = Some d -> p_has_header p = false -> p_iter p + lenN rest + 2 <= big -> (length rest + 2 <= fuel)%nat ->
  ~ open_end rest -> exists rs p', rows fuel p = Ok (rs, p').
Proof.
  induction fuel as [|f IH]; intros p rest ES ED EH B HF NO; [lia|]. cbn [rows]. unfold GetRow. rewrite EH. unfold get_row. rewrite ED, ES.
  destruct (row_loop_safe rest row_start (p_iter p) (good_start _)) as (o & rest' & it' & E & CS); auto; [lia|intros [[H _] _]; discriminate|].
  rewrite E. cbn [bind fst snd]. destruct o as [row|]; [|eauto].
  destruct CS as [(pre & -> & P1 & P2 & ->)|(-> & -> & P3)].
  - destruct (IH {| p_src := SFile rest'; p_iter := p_iter p + lenN pre; p_delim := Some d; p_has_header := p_has_header p; p_header := p_header p |} rest') as (rs & p' & E').
    + reflexivity.
    + reflexivity.
    + exact EH.
    + cbn [p_iter]. rewrite lenN_app in B. lia.
    + rewrite app_length in HF. destruct pre; [congruence|simpl in HF; lia].
    + intros (pre' & w & -> & W). apply NO. exists (pre ++ pre'), w. split; auto. rewrite app_assoc. reflexivity.
    + rewrite EH in *. rewrite E'. cbn [bind]. eauto.
  - destruct rest as [|c rest]; [specialize (P3 eq_refl eq_refl eq_refl); discriminate|].
    destruct f as [|f]; [simpl in HF; lia|]. cbn [rows]. unfold GetRow. cbn [p_has_header]. rewrite EH. unfold get_row. cbn [p_delim p_src row_loop p_iter r_buf r_fields row_start].
    unfold tick. rewrite (proj2 (N.ltb_lt _ int_max)) by (unfold big, int_max in *; lia). cbn [bind fst snd]. do 2 eexists. reflexivity.
Qed.
End Safe.

(** ** What is read *)
Section Read.
Context (d : ascii) (HD : delimiter_ok d = true).
Definition raw_char (c : ascii) : Prop := c <> d /\ c <> nl /\ c <> quote /\ c <> cr /\ c <> nul.
Definition quoted_char (c : ascii) : Prop := c <> cr /\ c <> nul.
Definition dbl (s : text) : text := flat_map (fun c => if Ascii.eqb c quote then [quote; quote] else [c]) s.
(** A field as it is, or in quotes with its quotes doubled *)
Inductive enc_field : text -> text -> Prop :=
| ef_raw f : Forall raw_char f -> enc_field f f
| ef_quoted f : Forall quoted_char f -> enc_field f (quote :: dbl f ++ [quote]).
Inductive enc_row : list text -> text -> Prop :=
| er_one f s : enc_field f s -> enc_row [f] s
| er_cons f s fs t : enc_field f s -> enc_row fs t -> enc_row (f :: fs) (s ++ d :: t).
(** Lines end in LF or CR LF; the last one may lack it, unless it is blank *)
Inductive enc_file : list (list text) -> text -> Prop :=
| efl_nil : enc_file [] []
| efl_last row t w : enc_row row t -> t <> [] -> crs w -> enc_file [row] (t ++ w)
| efl_cons row t w rs u : enc_row row t -> crs w -> enc_file rs u -> enc_file (row :: rs) (t ++ w ++ nl :: u).

Lemma cstring_id s : Forall (fun c => c <> nul) s -> cstring s = s.
Proof. induction 1 as [|c s H F IH]; simpl; auto. apply Ascii.eqb_neq in H. rewrite H, IH. reflexivity. Qed.
Lemma step_lift st c rest it st' : it + 1 <= big -> row_step d false st c = Ok (inl st') -> row_loop d st (c :: rest) it = row_loop d st' rest (it + 1).
Proof. intros B E. cbn [row_loop]. unfold tick. rewrite (proj2 (N.ltb_lt it int_max)) by (unfold big, int_max in *; lia). cbn [bind]. rewrite E. reflexivity. Qed.
(** At the start of a field *)
Record at_start (st : rowst) (fs : list text) (it : N) : Prop := {
  as_ok : ok_row st it; as_fields : r_fields st = fs; as_buf : r_buf st = []; as_inside : r_inside st = false; as_series : r_series st = 0; as_last : r_last st = false }.
(** At the end of the field [f] *)
Record at_end (st : rowst) (fs : list text) (f : text) (it : N) : Prop := {
  ae_ok : ok_row st it; ae_fields : r_fields st = fs; ae_kept : kept st = rev f; ae_buf : f <> [] -> r_buf st <> [];
  ae_inside : r_inside st = false; ae_hang : ~ hanging st; ae_start : fresh st = true -> r_series st = 0; ae_nul : Forall (fun c => c <> nul) f }.
Lemma eqb_no c e : c <> e -> Ascii.eqb c e = false.
Proof. apply Ascii.eqb_neq. Qed.
Lemma raw_step st it c fs b : ok_row st it -> it + 1 <= big -> raw_char c -> r_fields st = fs -> r_buf st = b -> r_inside st = false -> r_last st = false ->
  exists st', row_step d false st c = Ok (inl st') /\ ok_row st' (it + 1) /\ r_fields st' = fs /\ r_buf st' = c :: b /\ r_inside st' = false /\ r_last st' = false.
Proof.
  intros O B (R1 & R2 & R3 & R4 & R5) E1 E2 E3 E4. pose proof O as [O1 O2 O3 O4 O5 O6 O7 O8 O9].
  assert (forall st1, r_fields st1 = fs -> r_buf st1 = b -> r_inside st1 = false -> r_cap st1 = r_cap st -> r_realloc st1 = r_realloc st -> r_fcap st1 = r_fcap st -> r_series st1 <= it ->
    exists st', row_store d false st1 c = Ok (inl st') /\ ok_row st' (it + 1) /\ r_fields st' = fs /\ r_buf st' = c :: b /\ r_inside st' = false /\ r_last st' = false) as K.
  { intros st1 K1 K2 K3 K4 K5 K6 K7. pose proof (row_store_spec d false st1 it c B HD) as SP. rewrite K1, K2, K4, K5, K6, <- E1, <- E2 in SP.
    specialize (SP O1 O2 O3 O4 O5 O6 O7 ltac:(lia)). unfold ends in SP. rewrite (eqb_no c d R1), (eqb_no c nl R2) in SP. simpl in SP.
    destruct SP as (st' & E & S1 & S2 & S3 & S4 & S5 & S6). exists st'. split; auto. split; auto. split; [congruence|]. split; [congruence|]. split; [congruence|].
    rewrite S5. apply eqb_no; auto. }
  destruct (fresh st) eqn:F.
  - rewrite (row_step_fresh d false st c F (eqb_no _ _ R4)), (eqb_no _ _ R3). apply K; auto.
  - rewrite (row_step_plain d false st c F (eqb_no _ _ R4) (eqb_no _ _ R3)). apply K; auto. simpl. lia.
Qed.
Lemma read_raw f : Forall raw_char f -> forall st it fs b rest, ok_row st it -> it + lenN f <= big -> r_fields st = fs -> r_buf st = b -> r_inside st = false -> r_last st = false ->
  exists st', row_loop d st (f ++ rest) it = row_loop d st' rest (it + lenN f) /\ ok_row st' (it + lenN f) /\ r_fields st' = fs /\ r_buf st' = rev f ++ b /\
    r_inside st' = false /\ r_last st' = false /\ (f = [] -> st' = st).
Proof.
  induction 1 as [|c f H F IH]; intros st it fs b rest O B E1 E2 E3 E4.
  - exists st. change (lenN []) with 0. rewrite N.add_0_r. cbn [rev app]. repeat (split; [auto; fail|]). auto.
  - rewrite lenN_cons in *. destruct (raw_step st it c fs b O ltac:(lia) H E1 E2 E3 E4) as (st1 & S & O1 & S1 & S2 & S3 & S4).
    destruct (IH st1 (it + 1) fs (c :: b) rest O1 ltac:(lia) S1 S2 S3 S4) as (st2 & L & O2 & L1 & L2 & L3 & L4 & _).
    exists st2. cbn [app]. rewrite (step_lift st c (f ++ rest) it st1) by (auto; lia). rewrite L. replace (it + (lenN f + 1)) with (it + 1 + lenN f) by lia.
    split; auto. split; auto. split; auto. split; [rewrite L2; simpl; rewrite <- app_assoc; reflexivity|]. split; auto. split; auto. discriminate.
Qed.
(** inside quotes *)
Definition inner (st : rowst) (fs : list text) (b : text) (it : N) : Prop :=
  ok_row st it /\ r_fields st = fs /\ r_buf st = b /\ r_inside st = true /\ N.odd (r_series st) = false /\ fresh st = false.
Lemma quote_store st it : ok_row st it -> it + 1 <= big -> fresh st = false -> exists st', row_step d false st quote = Ok (inl st') /\ ok_row st' (it + 1) /\
  r_fields st' = r_fields st /\ r_buf st' = quote :: (if N.odd (r_series st) then tl (r_buf st) else r_buf st) /\ r_inside st' = N.odd (r_series st) /\
  r_series st' = r_series st + 1 /\ r_last st' = true.
Proof.
  intros O B F. rewrite (row_step_quote d st it F O B). pose proof O as [O1 O2 O3 O4 O5 O6 O7 O8 O9].
  set (st1 := if N.odd (r_series st) then _ else _).
  assert (r_fields st1 = r_fields st /\ r_fcap st1 = r_fcap st /\ r_realloc st1 = r_realloc st /\ r_cap st1 = r_cap st /\ lenN (r_buf st1) <= lenN (r_buf st) /\ r_series st1 = r_series st + 1 /\
    r_buf st1 = (if N.odd (r_series st) then tl (r_buf st) else r_buf st) /\ r_inside st1 = N.odd (r_series st)) as (Q1 & Q2 & Q3 & Q4 & Q5 & Q6 & Q7 & Q8).
  { unfold st1. destruct (N.odd (r_series st)); cbn [set_quotes r_fields r_fcap r_realloc r_buf r_cap r_inside r_series r_last]; repeat split; try lia.
    destruct (r_buf st); simpl; [lia|]. rewrite lenN_cons. lia. }
  pose proof (row_store_spec d false st1 it quote B HD) as SP.
  rewrite Q1, Q2, Q3, Q4, Q6 in SP. specialize (SP O1 ltac:(lia) O3 O4 O5 O6 ltac:(lia) ltac:(lia)).
  assert (ends d false (r_inside st1) quote = false) as EE by (unfold ends; rewrite Ascii.eqb_sym, (proj1 (delim_not d HD)); reflexivity).
  rewrite EE in SP. destruct SP as (st' & E & E1 & E2 & E3 & E4 & E5 & E6). exists st'. split; auto. split; auto. split; [rewrite E1; auto|]. split; [rewrite E2, Q7; reflexivity|]. split; [rewrite E3; auto|].
  split; [rewrite E4; auto|]. rewrite E5. reflexivity.
Qed.
Lemma read_inner f : Forall quoted_char f -> forall st it fs b rest, inner st fs b it -> it + lenN (dbl f) <= big ->
  exists st', row_loop d st (dbl f ++ rest) it = row_loop d st' rest (it + lenN (dbl f)) /\ inner st' fs (rev f ++ b) (it + lenN (dbl f)).
Proof.
  induction 1 as [|c f (H1 & H2) F IH]; intros st it fs b rest IN B.
  - exists st. change (lenN (dbl [])) with 0. rewrite N.add_0_r. split; auto.
  - destruct IN as (O & E1 & E2 & E3 & E4 & E5). unfold dbl in *. cbn [flat_map] in *. fold (dbl f) in *. rewrite lenN_app in *.
    destruct (Ascii.eqb_spec c quote) as [->|NQ].
    + change (lenN [quote; quote]) with 2 in *. cbn [app].
      destruct (quote_store st it O ltac:(lia) E5) as (st1 & S & O1 & S1 & S2 & S3 & S4 & S5). rewrite E4 in S2, S3.
      assert (fresh st1 = false) as F1 by (unfold fresh; rewrite S2; reflexivity).
      destruct (quote_store st1 (it + 1) O1 ltac:(lia) F1) as (st2 & T & O2 & T1 & T2 & T3 & T4 & T5).
      assert (N.odd (r_series st1) = true) as OD by (rewrite S4, N.odd_add, E4; reflexivity). rewrite OD in T2, T3. rewrite S2 in T2. cbn [tl] in T2.
      destruct (IH st2 (it + 1 + 1) fs (quote :: b) rest) as (st3 & L & IN3); [|lia|].
      { split; auto. split; [congruence|]. split; [congruence|]. split; auto. split; [rewrite T4, N.odd_add, OD; reflexivity|]. unfold fresh. rewrite T2. reflexivity. }
      exists st3. rewrite (step_lift st quote _ it st1) by (auto; lia). rewrite (step_lift st1 quote _ _ st2) by (auto; lia). rewrite L.
      replace (it + (2 + lenN (dbl f))) with (it + 1 + 1 + lenN (dbl f)) by lia. split; auto. simpl. rewrite <- app_assoc. exact IN3.
    + change (lenN [c]) with 1 in *. cbn [app]. apply Ascii.eqb_neq in NQ. apply Ascii.eqb_neq in H1 as NC. pose proof O as [O1 O2 O3 O4 O5 O6 O7 O8 O9].
      pose proof (row_step_plain d false st c E5 NC NQ) as RS. set (st1 := set_quotes st (r_buf st) (r_inside st) 0 (r_last st)) in *.
      pose proof (row_store_spec d false st1 it c ltac:(lia) HD O1 O2 O3 O4 O5 O6 O7 ltac:(simpl; lia)) as SP.
      assert (ends d false (r_inside st1) c = false) as EE. { change (r_inside st1) with (r_inside st). unfold ends. rewrite E3. simpl. apply andb_false_r. }
      rewrite EE in SP. destruct SP as (st' & E & S1 & S2 & S3 & S4 & S5 & S6). rewrite E in RS.
      destruct (IH st' (it + 1) fs (c :: b) rest) as (st3 & L & IN3); [|lia|].
      { split; auto. split; [rewrite S1; exact E1|]. split; [rewrite S2; simpl; congruence|]. split; [rewrite S3; exact E3|]. split; [rewrite S4; reflexivity|].
        unfold fresh. rewrite S2. reflexivity. }
      exists st3. rewrite (step_lift st c _ it st') by (auto; lia). rewrite L. replace (it + (1 + lenN (dbl f))) with (it + 1 + lenN (dbl f)) by lia.
      split; auto. simpl. rewrite <- app_assoc. exact IN3.
Qed.
Lemma raw_no_nul f : Forall raw_char f -> Forall (fun c => c <> nul) f.
Proof. apply Forall_impl. intros c H. apply H. Qed.
Lemma read_field f s : enc_field f s -> forall st it fs rest, at_start st fs it -> it + lenN s <= big ->
  exists st', row_loop d st (s ++ rest) it = row_loop d st' rest (it + lenN s) /\ at_end st' fs f (it + lenN s) /\ (s <> [] -> r_buf st' <> []).
Proof.
  intros E st it fs rest [A1 A2 A3 A4 A5 A6] B. inversion E as [g HR|g HQ]; subst.
  - destruct (read_raw s HR st it (r_fields st) [] rest A1 B eq_refl A3 A4 A6) as (st' & L & O & L1 & L2 & L3 & L4 & L5).
    rewrite app_nil_r in L2. exists st'. split; auto. assert (s <> [] -> r_buf st' <> []) as NE.
    { rewrite L2. intros NE E0. apply NE. rewrite <- (rev_involutive s), E0. reflexivity. }
    split; auto. split; auto.
    + unfold kept. rewrite L4. auto.
    + intros [HL _]. congruence.
    + intros HF. apply fresh_true in HF as [HB _]. rewrite L2 in HB. rewrite L5; auto. rewrite <- (rev_involutive s), HB. reflexivity.
    + apply raw_no_nul; auto.
  - rewrite lenN_cons, lenN_app in *. change (lenN [quote]) with 1 in *. pose proof A1 as [O1 O2 O3 O4 O5 O6 O7 O8 O9].
    assert (fresh st = true) as FR by (unfold fresh; rewrite A3, A6; reflexivity).
    pose proof (row_step_fresh d false st quote FR eq_refl) as RS. change (Ascii.eqb quote quote) with true in RS. cbn iota in RS.
    set (st1 := set_quotes st [] true (r_series st) true) in *.
    destruct (read_inner f HQ st1 (it + 1) (r_fields st) [] ([quote] ++ rest)) as (st2 & L & IN); [|lia|].
    { split; [|split; [reflexivity|]; split; [reflexivity|]; split; [reflexivity|]; split; [simpl; rewrite A5; reflexivity|reflexivity]].
      assert (lenN (@nil ascii) = 0) as L0 by reflexivity. unfold st1.
      split; cbn [set_quotes r_fields r_fcap r_realloc r_buf r_cap r_inside r_series r_last]; auto; try (rewrite L0); try lia. rewrite A5. discriminate. }
    destruct IN as (I1 & I2 & I3 & I4 & I5 & I6). rewrite app_nil_r in I3.
    destruct (quote_store st2 (it + 1 + lenN (dbl f)) I1 ltac:(lia) I6) as (st3 & T & O & T1 & T2 & T3 & T4 & T5). rewrite I5 in T2, T3.
    exists st3. cbn [app]. rewrite (step_lift st quote _ it st1) by (auto; lia). rewrite <- app_assoc. rewrite L. cbn [app].
    rewrite (step_lift st2 quote _ _ st3) by (auto; lia). replace (it + (lenN (dbl f) + 1 + 1)) with (it + 1 + lenN (dbl f) + 1) by lia. split; auto.
    assert (r_buf st3 <> []) as NB by (rewrite T2; discriminate). split; auto. split; auto.
    + congruence.
    + unfold kept. rewrite T5, T2, I3. reflexivity.
    + intros [_ HB]. congruence.
    + intros HF. apply fresh_true in HF as [HB _]. congruence.
    + eapply Forall_impl; [|exact HQ]. intros c Hc. apply Hc.
Qed.
(** the end of a field *)
Lemma end_field st fs f it c eof : at_end st fs f it -> it + 1 <= big -> c = nl \/ (c = d /\ eof = false) ->
  if Ascii.eqb c nl then row_step d eof st c = Ok (inr (rev (f :: fs)))
  else exists st', row_step d eof st c = Ok (inl st') /\ at_start st' (f :: fs) (it + 1).
Proof.
  intros [A1 A2 A3 A4 A5 A6 A7 A8] B Hc. pose proof A1 as [O1 O2 O3 O4 O5 O6 O7 O8 O9]. destruct (delim_not d HD) as (D1 & D2 & D3 & D4).
  assert (Ascii.eqb c cr = false /\ Ascii.eqb c quote = false) as [C1 C2] by (destruct Hc as [->|[-> _]]; auto).
  assert (exists st1, row_step d eof st c = row_store d eof st1 c /\ r_series st1 = 0 /\ r_fields st1 = fs /\ r_buf st1 = r_buf st /\ r_inside st1 = false /\ r_last st1 = r_last st /\
    r_cap st1 = r_cap st /\ r_realloc st1 = r_realloc st /\ r_fcap st1 = r_fcap st) as (st1 & -> & S1 & S2 & S3 & S4 & S5 & S6 & S7 & S8).
  { destruct (fresh st) eqn:F.
    - rewrite (row_step_fresh d eof st c F C1), C2. exists st. repeat split; auto.
    - rewrite (row_step_plain d eof st c F C1 C2). eexists. split; [reflexivity|]. repeat split; auto. }
  pose proof (row_store_spec d eof st1 it c B HD) as SP. rewrite S1, S2, S3, S6, S7, S8, <- A2 in SP. specialize (SP O1 O2 O3 O4 O5 O6 O7 ltac:(lia)).
  assert (ends d eof (r_inside st1) c = true) as EE.
  { unfold ends. rewrite S4. destruct Hc as [->|[-> ->]]; [change (Ascii.eqb nl nl) with true|rewrite Ascii.eqb_refl]; simpl; rewrite ?orb_true_r; auto. }
  rewrite EE in SP. rewrite S5 in SP. destruct SP as [(Q1 & Q2 & _)|[_ SP]]; [exfalso; apply A6; split; auto|]. cbn zeta in SP.
  assert (kept st1 = rev f) as EK by (unfold kept in *; rewrite S3, S5; auto). rewrite EK, rev_involutive, (cstring_id f A8), A2 in SP.
  destruct (Ascii.eqb c nl); [exact SP|]. destruct SP as (st' & E & E1 & E2 & E3 & E4 & E5 & E6). exists st'. split; auto. split; auto. congruence.
Qed.
Lemma at_start_lift st fs it : at_start st fs it -> fresh st = true /\ ~ hanging st.
Proof. intros []. unfold fresh, hanging. rewrite as_buf0, as_last0. split; auto. intros [? _]; discriminate. Qed.
Lemma at_end_mono st fs f it it' : it <= it' -> at_end st fs f it -> at_end st fs f it'.
Proof. intros H []. split; auto. eapply ok_row_mono; eauto. Qed.
(** a row, up to the last field *)
Lemma read_row row s : enc_row row s -> forall st it fs rest, at_start st fs it -> it + lenN s <= big ->
  exists st' fs' f, row_loop d st (s ++ rest) it = row_loop d st' rest (it + lenN s) /\ at_end st' fs' f (it + lenN s) /\ rev (f :: fs') = rev fs ++ row /\
    (s <> [] -> r_buf st' <> [] \/ fs' <> []).
Proof.
  induction 1 as [f s E|f s fs0 t E ER IH]; intros st it fs rest A B.
  - destruct (read_field f s E st it fs rest A B) as (st' & L & AE & NE). exists st', fs, f. split; auto.
  - rewrite lenN_app, lenN_cons in B. destruct (read_field f s E st it fs (d :: t ++ rest) A ltac:(lia)) as (st1 & L1 & AE & _).
    pose proof (end_field st1 fs f (it + lenN s) d false AE ltac:(lia) (or_intror (conj eq_refl eq_refl))) as EF.
    rewrite (proj1 (proj2 (delim_not d HD))) in EF. destruct EF as (st2 & S & AS).
    destruct (IH st2 (it + lenN s + 1) (f :: fs) rest AS ltac:(lia)) as (st' & fs' & g & L2 & AE' & ER' & NE).
    exists st', fs', g. rewrite <- app_assoc. cbn [app]. rewrite L1, (step_lift st1 d _ _ st2) by (auto; lia). rewrite L2. rewrite lenN_app, lenN_cons.
    replace (it + (lenN s + (lenN t + 1))) with (it + lenN s + 1 + lenN t) by lia. split; auto. split; auto. split.
    + rewrite ER'. simpl. rewrite <- app_assoc. reflexivity.
    + intros _. destruct (list_eq_dec Ascii.ascii_dec t []) as [->|NT]; [|auto]. right. intros ->. simpl in ER'.
      assert (length (rev fs ++ [f]) + length fs0 = 1)%nat as LL by (rewrite <- app_length, <- ER'; reflexivity).
      rewrite app_length in LL. simpl in LL. destruct fs0; [inversion ER|simpl in LL; lia].
Qed.
Lemma read_crs w : crs w -> forall st it rest, it + lenN w <= big -> row_loop d st (w ++ rest) it = row_loop d st rest (it + lenN w).
Proof.
  induction 1 as [|c w -> W IH]; intros st it rest B; [change (lenN (@nil ascii)) with 0; rewrite N.add_0_r; reflexivity|].
  rewrite lenN_cons in *. cbn [app]. rewrite (step_lift st cr _ it st) by (try lia; reflexivity). rewrite IH by lia. f_equal. lia.
Qed.
Lemma start_at_start it : at_start row_start [] it.
Proof. split; try reflexivity. apply ok_start. Qed.
Lemma read_line row t w rest it : enc_row row t -> crs w -> it + lenN t + lenN w + 1 <= big ->
  row_loop d row_start (t ++ w ++ nl :: rest) it = Ok (Some row, rest, it + lenN t + lenN w + 1).
Proof.
  intros ER W B. destruct (read_row row t ER row_start it [] (w ++ nl :: rest) (start_at_start it) ltac:(lia)) as (st & fs & f & L & AE & EQ & _).
  rewrite L, (read_crs w W) by lia. cbn [row_loop]. unfold tick. rewrite (proj2 (N.ltb_lt _ int_max)) by (unfold big, int_max in *; lia). cbn [bind].
  apply (at_end_mono st fs f _ (it + lenN t + lenN w)) in AE; [|lia].
  pose proof (end_field st fs f _ nl false AE ltac:(lia) (or_introl eq_refl)) as EF.
  change (Ascii.eqb nl nl) with true in EF. rewrite EF. cbn [bind]. rewrite EQ. reflexivity.
Qed.
Lemma read_last row t w it : enc_row row t -> t <> [] -> crs w -> it + lenN t + lenN w + 1 <= big ->
  row_loop d row_start (t ++ w) it = Ok (Some row, [], it + lenN t + lenN w + 1).
Proof.
  intros ER NT W B. destruct (read_row row t ER row_start it [] w (start_at_start it) ltac:(lia)) as (st & fs & f & L & AE & EQ & NE).
  rewrite L. rewrite <- (app_nil_r w) at 1. rewrite (read_crs w W) by lia. cbn [row_loop]. unfold tick. rewrite (proj2 (N.ltb_lt _ int_max)) by (unfold big, int_max in *; lia). cbn [bind].
  apply (at_end_mono st fs f _ (it + lenN t + lenN w)) in AE; [|lia].
  pose proof (end_field st fs f _ nl true AE ltac:(lia) (or_introl eq_refl)) as EF.
  change (Ascii.eqb nl nl) with true in EF. rewrite EF. cbn [bind]. rewrite EQ. simpl rev.
  pose proof (ae_fields _ _ _ _ AE) as EFS. rewrite EFS. destruct (NE NT) as [NB|NF].
  - destruct (r_buf st); [congruence|reflexivity].
  - destruct (r_buf st); [|reflexivity]. destruct fs; [congruence|reflexivity].
Qed.
(** Whole files *)
Theorem rows_file rs s : enc_file rs s -> forall fuel p, p_src p = SFile s -> p_delim p = Some d -> p_has_header p = false \/ p_header p <> None -> p_iter p + lenN s + 3 <= big ->
  (length s + 2 <= fuel)%nat -> exists p', rows fuel p = Ok (rs, p').
Proof.
  assert (forall p, p_has_header p = false \/ p_header p <> None -> GetRow p = get_row p) as GH.
  { intros p H. unfold GetRow. destruct (p_has_header p); auto. destruct (p_header p); auto. destruct H; congruence. }
  induction 1 as [|row t w ER NT W|row t w rs u ER W EF IH]; intros fuel p ES ED EH B HF.
  - destruct fuel as [|f]; [lia|]. cbn [rows]. rewrite (GH p EH). unfold get_row. rewrite ED, ES. cbn [row_loop]. unfold tick.
    rewrite (proj2 (N.ltb_lt _ int_max)) by (unfold big, int_max in *; lia). cbn [bind r_buf r_fields row_start fst snd]. eauto.
  - destruct fuel as [|[|f]]; [lia|lia|]. cbn [rows]. rewrite (GH p EH). unfold get_row at 1. rewrite ED, ES. rewrite lenN_app in B.
    rewrite (read_last row t w (p_iter p) ER NT W) by lia. cbn [bind fst snd]. rewrite GH by exact EH. unfold get_row. cbn [p_delim p_src p_iter row_loop]. unfold tick.
    rewrite (proj2 (N.ltb_lt _ int_max)) by (unfold big, int_max in *; lia). cbn [bind r_buf r_fields row_start fst snd]. eauto.
  - destruct fuel as [|f]; [lia|]. cbn [rows]. rewrite (GH p EH). unfold get_row at 1. rewrite ED, ES. rewrite !lenN_app, lenN_cons in B.
    rewrite (read_line row t w u (p_iter p) ER W) by lia. cbn [bind fst snd].
    destruct (IH f {| p_src := SFile u; p_iter := p_iter p + lenN t + lenN w + 1; p_delim := Some d; p_has_header := p_has_header p; p_header := p_header p |}) as (p' & E'); auto.
    { cbn [p_iter]. lia. }
    { rewrite !app_length in HF. simpl in HF. lia. }
    rewrite E'. cbn [bind]. eauto.
Qed.
End Read.

(** ** Headers, strings and written files *)
Section Files.
Context (d : ascii) (HD : delimiter_ok d = true).
Lemma new_delim s h : p_delim (new_parser s d h) = Some d.
Proof. unfold new_parser. cbn [p_delim]. rewrite HD. reflexivity. Qed.
Lemma first_row row rs s h : enc_file d (row :: rs) s -> lenN s + 3 <= big ->
  exists u it, get_row (new_parser (SFile s) d h) = Ok (Some row, {| p_src := SFile u; p_iter := it; p_delim := Some d; p_has_header := h; p_header := None |}) /\
    enc_file d rs u /\ it + lenN u <= lenN s + 1 /\ (length u <= length s)%nat.
Proof.
  intros EF B. unfold get_row. rewrite new_delim. cbn [new_parser p_src p_iter p_has_header p_header p_delim]. inversion EF; subst.
  - rewrite lenN_app in *. rewrite (read_last d HD row t w 0) by (auto; lia). cbn [bind fst snd]. exists [], (0 + lenN t + lenN w + 1). split; auto. split; [constructor|].
    split; [change (lenN []) with 0; lia|apply Nat.le_0_l].
  - rewrite !lenN_app, lenN_cons in *. rewrite (read_line d HD row t w u 0) by (auto; lia). cbn [bind fst snd]. exists u, (0 + lenN t + lenN w + 1). split; auto. split; auto.
    split; [lia|]. rewrite !app_length. simpl. lia.
Qed.
(** A file with a header *)
Theorem header_file row rs s : enc_file d (row :: rs) s -> lenN s + 4 <= big -> forall fuel, (length s + 2 <= fuel)%nat ->
  exists p1, GetHeader (new_parser (SFile s) d true) = Ok (Some row, p1) /\ GetHeader p1 = Ok (Some row, p1) /\
    (exists p2, rows fuel p1 = Ok (rs, p2)) /\ (exists p2, rows fuel (new_parser (SFile s) d true) = Ok (rs, p2)).
Proof.
  intros EF B fuel HF. destruct (first_row row rs s true EF ltac:(lia)) as (u & it & E & EU & BU & LU).
  eexists. split; [unfold GetHeader; cbn [p_has_header new_parser p_header negb]; rewrite E; cbn [bind]; reflexivity|]. split; [reflexivity|].
  set (p1 := set_header _ _).
  assert (exists p2, rows fuel p1 = Ok (rs, p2)) as (p2 & R).
  { apply (rows_file d HD rs u EU); auto; unfold p1, set_header; cbn [p_src p_delim p_has_header p_header p_iter]; auto; [right; discriminate|lia|lia]. }
  split; [eauto|]. exists p2. rewrite <- R. destruct fuel as [|f]; [lia|]. cbn [rows].
  assert (GetRow (new_parser (SFile s) d true) = GetRow p1) as ->; [|reflexivity].
  unfold GetRow at 1. cbn [p_has_header new_parser p_header]. rewrite E. cbn [bind]. reflexivity.
Qed.
(** Strings: every line ended *)
Inductive enc_lines : list (list text) -> text -> Prop :=
| eln_nil : enc_lines [] []
| eln_cons row t w rs u : enc_row d row t -> crs w -> enc_lines rs u -> enc_lines (row :: rs) (t ++ w ++ nl :: u).
Lemma enc_lines_file rs s : enc_lines rs s -> enc_file d rs s.
Proof. induction 1; constructor; auto. Qed.
Lemma get_row_string s pre rest p x it : s = pre ++ rest -> p_src p = SString s -> p_delim p = Some d -> p_iter p = lenN pre -> row_loop d row_start rest (p_iter p) = Ok (x, it) ->
  get_row p = Ok (fst x, {| p_src := SString s; p_iter := it; p_delim := Some d; p_has_header := p_has_header p; p_header := p_header p |}).
Proof.
  intros -> ES ED EI E. unfold get_row. rewrite ED, ES. rewrite EI, lenN_app, (proj2 (N.ltb_ge _ _)) by lia.
  assert (skipn (N.to_nat (lenN pre)) (pre ++ rest) = rest) as ->.
  { unfold lenN. rewrite Nat2N.id, skipn_app, skipn_all, Nat.sub_diag. reflexivity. }
  rewrite <- EI, E. cbn [bind]. reflexivity.
Qed.
Lemma GetRow_plain p : p_has_header p = false -> GetRow p = get_row p.
Proof. intros H. unfold GetRow. rewrite H. reflexivity. Qed.
Lemma rows_string_aux s rs rest : enc_lines rs rest -> forall pre fuel p, s = pre ++ rest -> p_src p = SString s -> p_delim p = Some d -> p_has_header p = false -> p_iter p = lenN pre ->
  lenN s + 3 <= big -> (length rest + 2 <= fuel)%nat -> exists p', rows fuel p = Ok (rs, p').
Proof.
  induction 1 as [|row t w rs u ER W EL IH]; intros pre fuel p E ES ED EH EI B HF; (destruct fuel as [|f]; [lia|]); cbn [rows]; rewrite (GetRow_plain p EH).
  - rewrite (get_row_string s pre [] p (None, []) (p_iter p + 1) E ES ED EI). { cbn [bind fst]. eauto. }
    cbn [row_loop]. unfold tick. rewrite E, lenN_app in B. rewrite (proj2 (N.ltb_lt _ int_max)) by (unfold big, int_max in *; lia). reflexivity.
  - assert (lenN s = lenN pre + (lenN t + (lenN w + (lenN u + 1)))) as LS by (rewrite E, !lenN_app, lenN_cons; reflexivity).
    rewrite (get_row_string s pre _ p (Some row, u) (p_iter p + lenN t + lenN w + 1) E ES ED EI) by (apply read_line; auto; lia). cbn [bind fst].
    destruct (IH (pre ++ t ++ w ++ [nl]) f {| p_src := SString s; p_iter := p_iter p + lenN t + lenN w + 1; p_delim := Some d; p_has_header := p_has_header p; p_header := p_header p |}) as (p' & R);
      cbn [p_src p_delim p_has_header p_iter]; auto.
    + rewrite E, <- !app_assoc. reflexivity.
    + rewrite EI, !lenN_app. change (lenN [nl]) with 1. lia.
    + rewrite !app_length in HF. simpl in HF. lia.
    + rewrite R. cbn [bind]. eauto.
Qed.
(** what a string cannot hold *)
Lemma field_no_nul f s : enc_field d f s -> Forall (fun c => c <> nul) s.
Proof.
  intros [g H|g H]; [eapply raw_no_nul; eauto|]. constructor; [discriminate|]. apply Forall_app. split; [|constructor; [discriminate|constructor]].
  unfold dbl. apply Forall_flat_map. eapply Forall_impl; [|exact H]. intros c [_ Hc]. destruct (Ascii.eqb c quote); repeat constructor; auto; discriminate.
Qed.
Lemma row_no_nul r s : enc_row d r s -> Forall (fun c => c <> nul) s.
Proof.
  induction 1 as [f s E|f s fs t E ER IH]; [eapply field_no_nul; eauto|]. apply Forall_app. split; [eapply field_no_nul; eauto|]. constructor; auto.
  intros ->. apply (delim_not nul) in HD. destruct HD as (_ & _ & _ & HN). discriminate.
Qed.
Lemma crs_no_nul w : crs w -> Forall (fun c => c <> nul) w.
Proof. apply Forall_impl. intros c ->. discriminate. Qed.
Lemma file_no_nul rs s : enc_file d rs s -> Forall (fun c => c <> nul) s.
Proof.
  induction 1 as [|row t w ER NT W|row t w rs u ER W EF IH]; [constructor| |].
  - apply Forall_app. split; [eapply row_no_nul; eauto|apply crs_no_nul; auto].
  - apply Forall_app. split; [eapply row_no_nul; eauto|]. apply Forall_app. split; [apply crs_no_nul; auto|]. constructor; [discriminate|exact IH].
Qed.
Theorem rows_string rs s : enc_lines rs s -> lenN s + 3 <= big -> forall fuel, (length s + 2 <= fuel)%nat -> exists p', rows fuel (new_parser (SString s) d false) = Ok (rs, p').
Proof.
  intros EL B fuel HF. apply (rows_string_aux s rs s EL [] fuel); auto; cbn [new_parser p_src p_iter].
  - rewrite cstring_id; auto. apply (file_no_nul rs). apply enc_lines_file; auto.
  - apply new_delim.
Qed.
(** The last line not ended: the parser reads past the end of the string *)
Inductive enc_open : list (list text) -> text -> Prop :=
| eo_last row t w : enc_row d row t -> t <> [] -> crs w -> enc_open [row] (t ++ w)
| eo_cons row t w rs u : enc_row d row t -> crs w -> enc_open rs u -> enc_open (row :: rs) (t ++ w ++ nl :: u).
Lemma rows_string_open_aux s rs rest : enc_open rs rest -> forall pre fuel p, s = pre ++ rest -> p_src p = SString s -> p_delim p = Some d -> p_has_header p = false -> p_iter p = lenN pre ->
  lenN s + 3 <= big -> (length rest + 2 <= fuel)%nat -> rows fuel p = UB.
Proof.
  induction 1 as [row t w ER NT W|row t w rs u ER W EL IH]; intros pre fuel p E ES ED EH EI B HF; (destruct fuel as [|f]; [lia|]); cbn [rows]; rewrite (GetRow_plain p EH).
  - assert (lenN s = lenN pre + (lenN t + lenN w)) as LS by (rewrite E, !lenN_app; reflexivity).
    rewrite (get_row_string s pre _ p (Some row, []) (p_iter p + lenN t + lenN w + 1) E ES ED EI) by (apply read_last; auto; lia). cbn [bind fst].
    destruct f as [|f]; [lia|]. cbn [rows]. rewrite GetRow_plain by (cbn [p_has_header]; auto). unfold get_row. cbn [p_delim p_src p_iter].
    rewrite (proj2 (N.ltb_lt _ _)) by lia. reflexivity.
  - assert (lenN s = lenN pre + (lenN t + (lenN w + (lenN u + 1)))) as LS by (rewrite E, !lenN_app, lenN_cons; reflexivity).
    rewrite (get_row_string s pre _ p (Some row, u) (p_iter p + lenN t + lenN w + 1) E ES ED EI) by (apply read_line; auto; lia). cbn [bind fst].
    rewrite (IH (pre ++ t ++ w ++ [nl]) f); cbn [p_src p_delim p_has_header p_iter]; auto.
    + rewrite E, <- !app_assoc. reflexivity.
    + rewrite EI, !lenN_app. change (lenN [nl]) with 1. lia.
    + rewrite !app_length in HF. simpl in HF. lia.
Qed.
Lemma enc_open_file rs s : enc_open rs s -> enc_file d rs s.
Proof. induction 1; [apply efl_last|apply efl_cons]; auto. Qed.
Theorem rows_string_open rs s : enc_open rs s -> lenN s + 3 <= big -> forall fuel, (length s + 2 <= fuel)%nat -> rows fuel (new_parser (SString s) d false) = UB.
Proof.
  intros EO B fuel HF. apply (rows_string_open_aux s rs s EO [] fuel); auto; cbn [new_parser p_src p_iter].
  - rewrite cstring_id; auto. apply (file_no_nul rs). apply enc_open_file; auto.
  - apply new_delim.
Qed.
(** A writer *)
Definition csv_field (f : text) : text := quote :: dbl f ++ [quote].
Fixpoint csv_row (fs : list text) : text :=
  match fs with [] => [] | [f] => csv_field f | f :: fs' => csv_field f ++ d :: csv_row fs' end.
Definition csv_text (rs : list (list text)) : text := flat_map (fun r => csv_row r ++ [nl]) rs.
Theorem csv_text_lines rs : Forall (fun r => r <> [] /\ Forall (Forall quoted_char) r) rs -> enc_lines rs (csv_text rs).
Proof.
  induction 1 as [|r rs [NE HR] F IH]; [constructor|]. unfold csv_text. cbn [flat_map]. fold (csv_text rs). rewrite <- app_assoc. change ([nl] ++ csv_text rs) with ([] ++ nl :: csv_text rs).
  constructor; auto; [|constructor]. clear -NE HR. induction HR as [|f r HF HR IH]; [congruence|]. destruct r as [|g r].
  - constructor. constructor; auto.
  - change (csv_row (f :: g :: r)) with (csv_field f ++ d :: csv_row (g :: r)). constructor; [constructor; auto|]. apply IH. discriminate.
Qed.
End Files.

(** ** No carriage return or zero byte in what is read *)
Definition clean (s : text) : Prop := Forall (fun c => c <> cr /\ c <> nul) s.
Definition no_cr (s : text) : Prop := Forall (fun c => c <> cr) s.
Lemma cstring_clean s : no_cr s -> clean (cstring s).
Proof.
  induction 1 as [|c s H F IH]; [constructor|]. cbn [cstring]. destruct (Ascii.eqb_spec c nul); [constructor|]. constructor; auto.
Qed.
Lemma Forall_tl {A} (P : A -> Prop) l : Forall P l -> Forall P (tl l).
Proof. intros F. destruct F; simpl; auto. Qed.
Definition clean_st (st : rowst) : Prop := Forall clean (r_fields st) /\ no_cr (r_buf st).
Definition clean_out (x : rowst + list text) : Prop := match x with inl st => clean_st st | inr row => Forall clean row end.
Lemma row_store_clean d eof st c x : c <> cr -> clean_st st -> row_store d eof st c = Ok x -> clean_out x.
Proof.
  intros NC [C1 C2]. unfold row_store. destruct (eof || _)%bool.
  - match goal with |- bind ?k _ = _ -> _ => destruct k as [kp| | | ] eqn:EK end; cbn [bind]; try discriminate.
    assert (no_cr kp) as CK. { destruct (r_last st); [|injection EK as <-; auto]. destruct (r_buf st); [discriminate|]. injection EK as <-. apply (Forall_tl _ _ C2). }
    destruct (N.ltb (lenN kp) _); cbn [bind]; [|discriminate]. destruct (N.ltb (lenN (r_fields st)) _); cbn [bind]; [|discriminate].
    destruct (N.ltb (lenN (cstring _)) _); cbn [bind]; [|discriminate].
    assert (Forall clean (cstring (rev kp) :: r_fields st)) as CF by (constructor; auto; apply cstring_clean; apply Forall_rev; auto).
    destruct (Ascii.eqb c nl); [intros E; injection E as <-; apply (Forall_rev CF)|].
    match goal with |- bind ?g _ = _ -> _ => destruct g; cbn [bind]; try discriminate end. intros E. injection E as <-. split; auto. constructor.
  - destruct (N.ltb _ _); cbn [bind]; [|discriminate]. match goal with |- bind ?g _ = _ -> _ => destruct g; cbn [bind]; try discriminate end.
    intros E. injection E as <-. split; auto. constructor; auto.
Qed.
Lemma row_step_clean d eof st c x : clean_st st -> row_step d eof st c = Ok x -> clean_out x.
Proof.
  intros C. unfold row_step. destruct (Ascii.eqb_spec c cr) as [_|NC]; [intros E; injection E as <-; auto|]. destruct C as [C1 C2].
  assert (forall i s l, clean_st (set_quotes st (r_buf st) i s l)) as K by (intros; split; auto).
  assert (forall x, (if Ascii.eqb c quote then
          let series := (r_series st + 1)%N in
          let inside := N.eqb (series mod 2) 0 in
          do _ <- (if N.leb series int_max then Ok tt else UB) ;;
          do buf <- (if inside then match r_buf st with [] => UB | _ :: b => Ok b end else Ok (r_buf st)) ;;
          row_store d eof (set_quotes st buf inside series (r_last st)) c
        else row_store d eof (set_quotes st (r_buf st) (r_inside st) 0 (r_last st)) c) = Ok x -> clean_out x) as M.
  { intros y. destruct (Ascii.eqb c quote); [|apply row_store_clean; auto]. cbn zeta. destruct (N.leb _ _); cbn [bind]; [|discriminate].
    match goal with |- bind ?g _ = _ -> _ => destruct g as [buf| | | ] eqn:EG end; cbn [bind]; try discriminate. apply row_store_clean; auto. split; auto. cbn [set_quotes r_buf].
    destruct (N.eqb _ 0); [|injection EG as <-; auto]. destruct (r_buf st); [discriminate|]. injection EG as <-. apply (Forall_tl _ _ C2). }
  destruct (r_buf st) eqn:EB; [|apply M]. destruct (r_last st); [apply M|].
  destruct (Ascii.eqb c quote); [intros E; injection E as <-; split; auto; constructor|]. apply row_store_clean; auto. split; auto. rewrite EB. constructor.
Qed.
Lemma row_loop_clean d rest : forall st it r rest' it', clean_st st -> row_loop d st rest it = Ok (r, rest', it') -> forall row, r = Some row -> Forall clean row.
Proof.
  induction rest as [|c rest IH]; intros st it r rest' it' C E row ->; cbn [row_loop] in E.
  - destruct (tick it); cbn [bind] in E; try discriminate.
    assert (forall st1, clean_st st1 -> (do x <- row_step d true st1 nl ;; match x with inr row => Ok (Some row, [], a) | inl _ => UB end) = Ok (Some row, rest', it') -> Forall clean row) as K.
    { intros st1 C1 K. destruct (row_step d true st1 nl) as [[?|rw]| | | ] eqn:ES; cbn [bind] in K; try discriminate. injection K as <- _ _. apply (row_step_clean _ _ _ _ _ C1 ES). }
    destruct (r_buf st); [destruct (r_fields st); [discriminate|]|]; apply (K st C E).
  - destruct (tick it); cbn [bind] in E; try discriminate. destruct (row_step d false st c) as [[st'|rw]| | | ] eqn:ES; cbn [bind] in E; try discriminate.
    + eapply IH; [|exact E|reflexivity]. apply (row_step_clean _ _ _ _ _ C ES).
    + injection E as <- _ _. apply (row_step_clean _ _ _ _ _ C ES).
Qed.
Theorem rows_clean fuel : forall p rs p', rows fuel p = Ok (rs, p') -> Forall (Forall clean) rs.
Proof.
  assert (forall p r p', get_row p = Ok (r, p') -> forall row, r = Some row -> Forall clean row) as G.
  { intros p r p' E row ->. assert (clean_st row_start) as C0 by (split; constructor). unfold get_row in E. destruct (p_delim p) as [d|]; [|discriminate]. destruct (p_src p) as [rest| |s]; [|discriminate|].
    - destruct (row_loop d row_start rest (p_iter p)) as [[[x y] z]| | | ] eqn:EL; cbn [bind fst] in E; try discriminate. injection E as -> _. eapply row_loop_clean; eauto.
    - destruct (N.ltb _ _); [discriminate|]. destruct (row_loop d row_start _ (p_iter p)) as [[[x y] z]| | | ] eqn:EL; cbn [bind fst] in E; try discriminate. injection E as -> _. eapply row_loop_clean; eauto. }
  induction fuel as [|f IH]; intros p rs p' E; [discriminate|]. cbn [rows] in E. destruct (GetRow p) as [[r p1]| | | ] eqn:EG; cbn [bind] in E; try discriminate.
  destruct r as [row|]; [|injection E as <- _; constructor]. destruct (rows f p1) as [[rs1 p2]| | | ] eqn:ER; cbn [bind] in E; try discriminate. injection E as <- _.
  constructor; [|eapply IH; eauto]. unfold GetRow in EG. destruct (p_has_header p); [destruct (p_header p)|]; [eapply G; eauto| |eapply G; eauto].
  destruct (get_row p) as [[h p3]| | | ]; cbn [bind] in EG; try discriminate. eapply G; eauto.
Qed.

(** ** A line that ends in the quote that opens a field, at the end of the file: currField[-1] is written *)
Theorem open_quote_ub d row s w : delimiter_ok d = true -> enc_row d row s -> crs w -> lenN s + lenN w + 4 <= big -> forall fuel, fuel <> O ->
  rows fuel (new_parser (SFile (s ++ d :: quote :: w)) d false) = UB.
Proof.
  intros HD ER W B [|f] HF; [congruence|]. cbn [rows]. rewrite GetRow_plain by reflexivity. unfold get_row. rewrite (new_delim d HD). cbn [new_parser p_src p_iter].
  destruct (read_row d HD row s ER row_start 0 [] (d :: quote :: w) (start_at_start 0) ltac:(lia)) as (st & fs & g & L & AE & _ & _). rewrite L.
  pose proof (end_field d HD st fs g _ d false AE ltac:(lia) (or_intror (conj eq_refl eq_refl))) as EF.
  rewrite (proj1 (proj2 (delim_not d HD))) in EF. destruct EF as (st2 & S & AS). rewrite (step_lift d st d _ _ st2) by (auto; lia).
  destruct (at_start_lift _ _ _ AS) as [FR _]. pose proof (row_step_fresh d false st2 quote FR eq_refl) as RS. change (Ascii.eqb quote quote) with true in RS. cbn iota in RS.
  rewrite (step_lift d st2 quote _ _ _) by (eauto; lia). rewrite <- (app_nil_r w), (read_crs d w W) by lia. cbn [row_loop]. unfold tick.
  rewrite (proj2 (N.ltb_lt _ int_max)) by (unfold big, int_max in *; lia). cbn [bind set_quotes r_buf r_fields]. rewrite (as_fields _ _ _ AS). cbn [row_step].
  unfold row_step. cbn [r_buf r_last]. change (Ascii.eqb nl cr) with false. change (Ascii.eqb nl quote) with false. cbn iota. unfold row_store. cbn. reflexivity.
Qed.
