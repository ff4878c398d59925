(** What reading and compiling a CNF returns. *)
From Coq Require Import Ascii String Reals Lra.
From Verif Require Import Base Param Vtree VtreeProofs Spec SpecProofs Heap Manager HeapProofs SerProofs RepProofs LoadProofs MulProofs
  TreeProofs Query QueryProofs MpeProofs SampleProofs Sdd SddProofs Text IO Cnf.

(** * Reading *)
Definition spaces (ws : text) : Prop := Forall (fun c => is_space c = true) ws.
(** The text of a clause: literals separated by blanks, ended by 0 (whatever follows it) or by the end of the line *)
Inductive clause_text : text -> list Z -> Prop :=
| ct_zero ws rest : spaces ws -> starts_blank rest -> clause_text (ws ++ show_Z 0 ++ rest) []
| ct_end ws : spaces ws -> clause_text ws []
| ct_lit ws z t zs : spaces ws -> (- 9223372036854775808 <= z <= 9223372036854775807)%Z -> z <> 0%Z -> starts_blank t ->
    clause_text t zs -> clause_text (ws ++ show_Z z ++ t) (z :: zs).
(** A line of a DIMACS file with the clauses it lists: a comment, the problem line, or a clause *)
Inductive dimacs_line : text -> list (list Z) -> Prop :=
| dl_comment s : no_nl s -> dimacs_line ("c"%char :: s) []
| dl_problem s : no_nl s -> dimacs_line ("p"%char :: s) []
| dl_clause s c : no_nl s -> clause_text s c -> dimacs_line s [c].

Lemma skip_ws_spaces ws s : spaces ws -> skip_ws (ws ++ s) = skip_ws s.
Proof. induction 1 as [|c ws H F IH]; simpl; auto. rewrite H. auto. Qed.
Lemma ex_int_spaces lo hi ws s : spaces ws -> ex_int lo hi (ws ++ s, true) = ex_int lo hi (blank :: s, true).
Proof. intros H. unfold ex_int. cbn [negb]. rewrite skip_ws_spaces, skip_ws_blank by auto. reflexivity. Qed.
Lemma skip_ws_len s : (List.length (skip_ws s) <= List.length s)%nat.
Proof. induction s as [|c s IH]; simpl; auto. destruct (is_space c); simpl; lia. Qed.
Lemma take_digits_len s : forall u r, take_digits s = (u, r) -> (List.length r <= List.length s)%nat /\ (is_nil u = false -> (List.length r < List.length s)%nat).
Proof.
  induction s as [|c s IH]; intros u r E; simpl in E.
  - injection E as <- <-. split; auto. discriminate.
  - destruct (digit_of c) as [d|] eqn:Ed.
    + destruct (take_digits s) as [u' r'] eqn:E'. injection E as <- <-. destruct (IH _ _ eq_refl) as [A _]. simpl. split; intros; lia.
    + injection E as <- <-. split; auto. discriminate.
Qed.
Lemma ex_int_consumes lo hi s z s' : ex_int lo hi (s, true) = (z, (s', true)) -> (exists z', z = Some z') /\ (List.length s' < List.length s)%nat.
Proof.
  unfold ex_int. cbn [negb]. pose proof (skip_ws_len s) as L. destruct (skip_ws s) as [|c s1]; [discriminate|]. simpl in L.
  set (b := if Ascii.eqb c "-" then (true, s1) else if Ascii.eqb c "+" then (false, s1) else (false, c :: s1)).
  assert (List.length (snd b) <= S (List.length s1))%nat as LB by (unfold b; destruct (Ascii.eqb c "-"), (Ascii.eqb c "+"); simpl; lia).
  destruct b as [neg body]. simpl in LB. destruct (take_digits body) as [u r] eqn:E. destruct (take_digits_len _ _ _ E) as [_ LL].
  destruct (is_nil u); [discriminate|]. specialize (LL eq_refl).
  destruct (Z.eqb lo 0); [destruct (Z.ltb hi _)|destruct (Z.ltb _ lo); [|destruct (Z.ltb hi _)]]; try discriminate;
    intros X; injection X as <- <-; split; eauto; lia.
Qed.
Lemma read_clause_total : forall fuel s g, (List.length s < fuel)%nat -> exists c, read_clause fuel (s, g) = Ok c.
Proof.
  induction fuel as [|f IH]; intros s g L; [lia|]. cbn [read_clause]. destruct (ex_i64 (s, g)) as [z [s1 g1]] eqn:E. cbn [snd].
  destruct g1; [|eauto]. destruct g.
  - destruct (ex_int_consumes _ _ _ _ _ E) as [[z' ->] LL]. cbn [get bind]. destruct (Z.eqb z' 0); [eauto|].
    destruct (IH s1 true) as [c E1]; [lia|]. replace (read_clause f (s1, true)) with (Ok c) by (symmetry; exact E1). simpl. eauto.
  - unfold ex_i64, ex_int in E. simpl in E. congruence.
Qed.
(** No file makes the reader loop, crash or fail. *)
Theorem read_cnf_total content : exists cs, ReadCnf content = Ok cs.
Proof.
  unfold ReadCnf.
  assert (forall ls, exists cs, mapM read_cnf_line ls = Ok cs) as K.
  { induction ls as [|l ls [cs IH]]; simpl; eauto.
    assert (exists c, read_cnf_line l = Ok c) as [c ->].
    { unfold read_cnf_line. destruct (Ascii.eqb _ "p"); eauto. destruct (Ascii.eqb _ "c"); eauto.
      destruct (read_clause_total (S (List.length l)) l true) as [c E]; [lia|].
      replace (read_clause (S (List.length l)) (l, true)) with (Ok c) by (symmetry; exact E). simpl. eauto. }
    simpl. rewrite IH. simpl. eauto. }
  destruct (K (lines content)) as [cs ->]. simpl. eauto.
Qed.
Lemma ex_i64_Z ws z rest : spaces ws -> (- 9223372036854775808 <= z <= 9223372036854775807)%Z -> nodig rest ->
  ex_i64 (ws ++ show_Z z ++ rest, true) = (Some z, (rest, true)).
Proof. intros H B R. unfold ex_i64. rewrite ex_int_spaces by auto. apply ex_int_Z; auto. reflexivity. Qed.
Lemma show_Z_len z : (0 < List.length (show_Z z))%nat.
Proof.
  assert (forall n, (0 < List.length (show_N n))%nat) as K by (intros n; destruct (show_N_head n) as (c & s & E & _); rewrite E; simpl; lia).
  destruct z; unfold show_Z; [apply K|apply K|simpl; lia].
Qed.
Lemma read_clause_spec s c : clause_text s c -> forall fuel, (List.length s < fuel)%nat -> read_clause fuel (s, true) = Ok c.
Proof.
  induction 1 as [ws rest H1 H2|ws H1|ws z t zs H1 H2 H3 H4 H5 IH]; intros [|f] L; try lia; cbn [read_clause].
  - rewrite ex_i64_Z by (first [assumption | split; discriminate | apply starts_blank_nodig; assumption]). reflexivity.
  - assert (skip_ws ws = []) as E. { rewrite <- (app_nil_r ws). rewrite skip_ws_spaces; auto. }
    unfold ex_i64, ex_int. cbn [negb]. rewrite E. reflexivity.
  - rewrite ex_i64_Z by (first [assumption | apply starts_blank_nodig; assumption]). cbn [snd get bind]. destruct (Z.eqb_spec z 0) as [Z|_]; [congruence|].
    rewrite IH; [reflexivity|]. rewrite !app_length in L. pose proof (show_Z_len z). lia.
Qed.
Lemma clause_text_head s c : clause_text s c -> head_char s <> "p"%char /\ head_char s <> "c"%char.
Proof.
  assert (forall ws, spaces ws -> forall x, (head_char x <> "p"%char /\ head_char x <> "c"%char) -> head_char (ws ++ x) <> "p"%char /\ head_char (ws ++ x) <> "c"%char) as K.
  { intros ws H x Hx. destruct H as [|c0 ws H F]; auto. simpl. split; intros ->; discriminate. }
  assert (forall z rest, head_char (show_Z z ++ rest) <> "p"%char /\ head_char (show_Z z ++ rest) <> "c"%char) as KZ.
  { assert (forall u, u <> Decimal.Nil -> forall rest, head_char (digits u ++ rest) <> "p"%char /\ head_char (digits u ++ rest) <> "c"%char) as KD.
    { intros u Hu rest. destruct u; try congruence; simpl; split; discriminate. }
    intros z rest. destruct z; simpl; try (split; discriminate). apply KD, to_uint_not_nil. }
  destruct 1.
  - apply K; auto.
  - rewrite <- (app_nil_r ws). apply K; auto. simpl. split; discriminate.
  - apply K; auto.
Qed.
Lemma lines_from_open l : forall acc, no_nl l -> rev acc ++ l <> [] -> lines_from acc l = [rev acc ++ l].
Proof.
  induction l as [|c l IH]; intros acc H NE; simpl.
  - rewrite app_nil_r in *. destruct acc; [contradiction|reflexivity].
  - destruct (Ascii.eqb c nl) eqn:E. { apply Ascii.eqb_eq in E. subst. exfalso. apply H. left; auto. }
    rewrite IH; [simpl; rewrite <- app_assoc; reflexivity|intros G; apply H; right; auto|]. simpl. rewrite <- app_assoc. exact NE.
Qed.
(** The lines of a file whose last line, not an empty one, has no newline *)
Lemma lines_open ls s : Forall no_nl ls -> last ls [] <> [] -> s ++ [nl] = unlines ls -> lines s = ls.
Proof.
  intros F NE E. destruct ls as [|l0 ls0]; [contradiction NE; reflexivity|].
  destruct (@exists_last _ (l0 :: ls0)) as (ls & l & EL); [discriminate|]. rewrite EL in *. clear EL l0 ls0.
  rewrite last_last in NE. apply Forall_app in F as [F Fl]. inversion Fl as [|? ? NL _]; subst.
  rewrite unlines_app in E. unfold unlines at 2 in E. simpl in E. rewrite app_nil_r, app_assoc in E. apply app_inj_tail in E as [-> _].
  clear Fl. induction F as [|l1 ls H F IH]; [unfold lines; simpl; rewrite lines_from_open; auto|].
  unfold unlines in *. simpl. rewrite <- !app_assoc. simpl. unfold lines in *. rewrite lines_from_line by auto. simpl. f_equal. exact IH.
Qed.
Theorem read_cnf_spec ls css content : Forall2 dimacs_line ls css -> content = unlines ls \/ content ++ [nl] = unlines ls /\ last ls [] <> [] ->
  ReadCnf content = Ok (concat css).
Proof.
  intros F EC. unfold ReadCnf.
  assert (Forall no_nl ls) as NN.
  { clear - F. induction F as [|l cs ls css H F IH]; constructor; auto. destruct H; auto; intros [Z|Z]; try discriminate; auto. }
  assert (lines content = ls) as ->. { destruct EC as [->|[E NE]]; [apply lines_unlines; auto|apply lines_open; auto]. }
  assert (mapM read_cnf_line ls = Ok css) as ->; auto. clear EC NN.
  induction F as [|l cs ls css H F IH]; simpl; auto.
  assert (read_cnf_line l = Ok cs) as ->.
  { unfold read_cnf_line. destruct H as [s _|s _|s c _ H].
    - reflexivity.
    - reflexivity.
    - destruct (clause_text_head _ _ H) as [A B]. apply Ascii.eqb_neq in A, B. rewrite A, B.
      rewrite (read_clause_spec _ _ H); auto. }
  simpl. rewrite IH. reflexivity.
Qed.

(** * Compiling *)
(** The meaning of a CNF *)
Definition clause_sat (c : list Z) (x : inst) : bool := existsb (fun l => lit_sat l x) c.
Definition cnf_sat (cs : list (list Z)) (x : inst) : bool := forallb (fun c => clause_sat c x) cs.

(** Node [n] of the library in state [s] is a trimmed SDD for the Boolean function [f].  [inv]: the states the library can be in. *)
Definition denotes (svt : vtree) (lib : sddlib) (inv : L_state lib -> Prop) (s : L_state lib) (n : nat) (f : inst -> bool) : Prop :=
  inv s /\ exists st, SRep (L_nodes lib s) n st /\ swf svt st /\ forall y, models st y = f y.
(** What libsdd's functions do (with automatic garbage collection and minimization off) *)
Record lib_ok (svt : vtree) (lib : sddlib) (inv : L_state lib -> Prop) : Prop := {
  lo_new : inv (L_new lib);
  lo_true : forall s, inv s -> denotes svt lib inv s (L_true lib s) (fun _ => true);
  lo_false : forall s, inv s -> denotes svt lib inv s (L_false lib s) (fun _ => false);
  lo_lit : forall s l, inv s -> l <> 0%Z -> In (Z.abs_N l) (leaves svt) ->
    denotes svt lib inv (snd (L_lit lib l s)) (fst (L_lit lib l s)) (lit_sat l) /\
    forall n f, denotes svt lib inv s n f -> denotes svt lib inv (snd (L_lit lib l s)) n f;
  lo_and : forall s a b f g, denotes svt lib inv s a f -> denotes svt lib inv s b g ->
    denotes svt lib inv (snd (L_and lib a b s)) (fst (L_and lib a b s)) (fun y => f y && g y) /\
    forall n h, denotes svt lib inv s n h -> denotes svt lib inv (snd (L_and lib a b s)) n h;
  lo_or : forall s a b f g, denotes svt lib inv s a f -> denotes svt lib inv s b g ->
    denotes svt lib inv (snd (L_or lib a b s)) (fst (L_or lib a b s)) (fun y => f y || g y) /\
    forall n h, denotes svt lib inv s n h -> denotes svt lib inv (snd (L_or lib a b s)) n h;
  lo_topo : forall s n f, denotes svt lib inv s n f -> topo_order (L_nodes lib s) n (L_topo lib s n)
}.
Lemma denotes_ext svt lib inv s n f g : (forall y, f y = g y) -> denotes svt lib inv s n f -> denotes svt lib inv s n g.
Proof. intros H (I & st & A & B & C). split; auto. exists st. split; auto. split; auto. intros y. rewrite C. auto. Qed.

Section Construct.
Context (svt : vtree) (lib : sddlib) (inv : L_state lib -> Prop) (OK : lib_ok svt lib inv) (vm : N -> option N).
Context (VM : forall v w, vm v = Some w -> w <> 0%N /\ In w (leaves svt)).
(** the literal over the SDD's variables *)
Definition ren_sat (c : list Z) (y : inst) : bool :=
  existsb (fun l => match vm (Z.abs_N l) with Some w => Bool.eqb (y w) (Z.ltb 0 l) | None => false end) c.
Notation den := (denotes svt lib inv).
Lemma clause_step_spec s acc f l w : den s acc f -> vm (Z.abs_N l) = Some w -> l <> 0%Z -> exists n s',
  clause_step lib vm (acc, s) l = Ok (n, s') /\ den s' n (fun y => Bool.eqb (y w) (Z.ltb 0 l) || f y) /\
  forall k g, den s k g -> den s' k g.
Proof.
  intros D V NZ. destruct (VM _ _ V) as [W0 Wl]. unfold clause_step.
  assert (forall (l' : Z), Z.abs_N l' = w -> (Z.ltb 0 l' = Z.ltb 0 l) -> exists n s',
    (let '(n, s1) := L_lit lib l' s in Ok (L_or lib n acc s1)) = Ok (n, s') /\ den s' n (fun y => Bool.eqb (y w) (Z.ltb 0 l) || f y) /\
    forall k g, den s k g -> den s' k g) as K.
  { intros l' E1 E2. destruct (lo_lit _ _ _ OK s l' (proj1 D)) as [A B]; [intros ->; simpl in E1; congruence|rewrite E1; auto|].
    destruct (L_lit lib l' s) as [n s1]. simpl in A, B. destruct (lo_or _ _ _ OK s1 n acc _ _ A (B _ _ D)) as [C1 C2].
    destruct (L_or lib n acc s1) as [r s2]. simpl in C1, C2. exists r, s2. split; auto. split; auto.
    eapply denotes_ext; [|exact C1]. intros y. unfold lit_sat. rewrite E1, E2. auto. }
  destruct (Z.ltb_spec l 0).
  - replace (Z.to_N (- l)) with (Z.abs_N l) by lia. rewrite V. cbn [get bind]. apply K; [lia|].
    destruct (Z.ltb_spec 0 (- Z.of_N w)), (Z.ltb_spec 0 l); auto; lia.
  - replace (Z.to_N l) with (Z.abs_N l) by lia. rewrite V. cbn [get bind]. apply K; [lia|].
    destruct (Z.ltb_spec 0 (Z.of_N w)), (Z.ltb_spec 0 l); auto; lia.
Qed.
Definition in_scope (c : list Z) : Prop := forall l, In l c -> l <> 0%Z /\ vm (Z.abs_N l) <> None.
Lemma clause_spec c : in_scope c -> forall s acc f, den s acc f -> exists n s',
  foldM (clause_step lib vm) c (acc, s) = Ok (n, s') /\ den s' n (fun y => f y || ren_sat c y) /\ forall k g, den s k g -> den s' k g.
Proof.
  induction c as [|l c IH]; intros HC s acc f D.
  - exists acc, s. split; auto. split; auto. eapply denotes_ext; [|exact D]. intros y. simpl. rewrite orb_false_r. auto.
  - destruct (HC l) as [NZ NV]; [left; auto|]. destruct (vm (Z.abs_N l)) as [w|] eqn:V; [|congruence].
    destruct (clause_step_spec s acc f l w D V NZ) as (n & s1 & E1 & D1 & X1).
    destruct (IH (fun l' H => HC l' (or_intror H)) s1 n _ D1) as (r & s2 & E2 & D2 & X2).
    exists r, s2. split; [cbn [foldM]; rewrite E1; exact E2|]. split; auto.
    eapply denotes_ext; [|exact D2]. intros y. simpl. rewrite V. destruct (f y), (Bool.eqb (y w) (Z.ltb 0 l)), (ren_sat c y); auto.
Qed.
Lemma cnf_spec cs : Forall in_scope cs -> forall s acc f, den s acc f -> exists n s',
  foldM (cnf_step lib vm) cs (acc, s) = Ok (n, s') /\ den s' n (fun y => f y && forallb (fun c => ren_sat c y) cs).
Proof.
  induction 1 as [|c cs HC F IH]; intros s acc f D.
  - exists acc, s. split; auto. eapply denotes_ext; [|exact D]. intros y. simpl. rewrite andb_true_r. auto.
  - pose proof (lo_false _ _ _ OK s (proj1 D)) as D0.
    destruct (clause_spec c HC s _ _ D0) as (n & s1 & E1 & D1 & X1).
    destruct (lo_and _ _ _ OK s1 acc n _ _ (X1 _ _ D) D1) as [D2 _].
    destruct (L_and lib acc n s1) as [r s2] eqn:EA. simpl in D2.
    destruct (IH s2 r _ D2) as (r' & s3 & E3 & D3). exists r', s3. split.
    + cbn [foldM]. unfold cnf_step at 1. rewrite E1. cbn [bind]. rewrite EA. exact E3.
    + eapply denotes_ext; [|exact D3]. intros y. simpl. destruct (f y); auto.
Qed.
(** an unknown variable *)
Lemma clause_unknown c : ~ in_scope c -> (forall l, In l c -> l <> 0%Z) -> forall s acc f, den s acc f ->
  foldM (clause_step lib vm) c (acc, s) = UB.
Proof.
  induction c as [|l c IH]; intros NS NZ s acc f D.
  - exfalso. apply NS. intros l [].
  - cbn [foldM]. destruct (vm (Z.abs_N l)) as [w|] eqn:V.
    + destruct (clause_step_spec s acc f l w D V (NZ l (or_introl eq_refl))) as (n & s1 & E1 & D1 & X1). rewrite E1. cbn [bind].
      eapply IH; eauto.
      * intros H. apply NS. intros l' [<-|Hl']; auto. split; [apply NZ; left; auto|congruence].
      * intros l' Hl'. apply NZ. right. auto.
    + unfold clause_step. destruct (Z.ltb_spec l 0).
      * replace (Z.to_N (- l)) with (Z.abs_N l) by lia. rewrite V. reflexivity.
      * replace (Z.to_N l) with (Z.abs_N l) by lia. rewrite V. reflexivity.
Qed.
Lemma in_scope_dec c : in_scope c \/ ~ in_scope c.
Proof.
  induction c as [|l c IH].
  - left. intros l [].
  - destruct IH as [IH|IH]; [|right; intros H; apply IH; intros l' Hl'; apply H; right; auto].
    destruct (Z.eq_dec l 0) as [->|NZ]; [right; intros H; destruct (H 0%Z); [left|]; auto|].
    destruct (vm (Z.abs_N l)) eqn:V.
    + left. intros l' [<-|Hl']; auto. split; auto. congruence.
    + right. intros H. destruct (H l); [left|]; auto.
Qed.
Lemma cnf_unknown cs c : In c cs -> ~ in_scope c -> (forall c l, In c cs -> In l c -> l <> 0%Z) -> forall s acc f, den s acc f ->
  foldM (cnf_step lib vm) cs (acc, s) = UB.
Proof.
  induction cs as [|c0 cs IH]; intros Hc NS NZ s acc f D; [destruct Hc|].
  pose proof (lo_false _ _ _ OK s (proj1 D)) as D0. cbn [foldM]. unfold cnf_step at 1.
  destruct (in_scope_dec c0) as [S0|S0].
  - destruct (clause_spec c0 S0 s _ _ D0) as (n & s1 & E1 & D1 & X1).
    destruct (lo_and _ _ _ OK s1 acc n _ _ (X1 _ _ D) D1) as [D2 _].
    rewrite E1. cbn [bind]. destruct (L_and lib acc n s1) as [r s2] eqn:EA. simpl in D2.
    destruct Hc as [->|Hc]; [contradiction|]. eapply IH; eauto. intros c' l Hc' Hl. apply (NZ c' l); [right|]; auto.
  - rewrite (clause_unknown c0 S0) with (f := fun _ => false); auto. intros l Hl. apply (NZ c0 l); [left|]; auto.
Qed.
End Construct.

Lemma forallb_in_ext {A} (f g : A -> bool) l : (forall a, In a l -> f a = g a) -> forallb f l = forallb g l.
Proof. induction l as [|a l IH]; intros H; simpl; auto. rewrite H, IH; auto. intros b Hb. apply H. right. auto. left; auto. Qed.
(** ** The numbering of the variables *)
Lemma number_spec vs : forall k v w, Nlookup v (number k vs) = Some w -> (k <= w)%N /\ In v vs.
Proof.
  induction vs as [|u vs IH]; intros k v w H; [discriminate|]. cbn [number] in H. rewrite Nlookup_cons in H. destruct (N.eqb_spec v u) as [->|NE].
  - injection H as <-. split; [lia|left; auto].
  - destruct (IH _ _ _ H). split; [lia|right; auto].
Qed.
Lemma number_in vs : forall k v, In v vs -> exists w, Nlookup v (number k vs) = Some w.
Proof.
  induction vs as [|u vs IH]; intros k v H; [destruct H|]. cbn [number]. rewrite Nlookup_cons. destruct (N.eqb_spec v u) as [->|NE]; [eauto|].
  destruct H as [H|H]; [congruence|auto].
Qed.
(** the inverse *)
Fixpoint named (k : N) (vs : list N) (w : N) : option N :=
  match vs with [] => None | v :: vs' => if N.eqb w k then Some v else named (k + 1) vs' w end.
Lemma named_number vs : forall k v w, NoDup vs -> Nlookup v (number k vs) = Some w -> named k vs w = Some v.
Proof.
  induction vs as [|u vs IH]; intros k v w ND H; [discriminate|]. cbn [number] in H. cbn [named]. rewrite Nlookup_cons in H. inversion ND; subst.
  destruct (N.eqb_spec v u) as [->|NE].
  - injection H as <-. rewrite N.eqb_refl. auto.
  - destruct (number_spec _ _ _ _ H) as [A _]. destruct (N.eqb_spec w k); [lia|]. auto.
Qed.
Lemma rename_inv f g t : forall t', (forall v w, In v (leaves t) -> f v = Some w -> g w = Some v) -> rename_vtree f t = Some t' -> rename_vtree g t' = Some t.
Proof.
  induction t as [v|a IHa b IHb]; intros t' H E; simpl in E.
  - destruct (f v) as [w|] eqn:Ef; [|discriminate]. injection E as <-. simpl. rewrite (H v w); simpl; auto.
  - destruct (rename_vtree f a) as [a'|] eqn:Ea; [|discriminate]. destruct (rename_vtree f b) as [b'|] eqn:Eb; [|discriminate]. injection E as <-.
    simpl. rewrite (IHa a'), (IHb b'); auto; intros; apply H; auto; simpl; apply in_or_app; auto.
Qed.
Definition in_vtree (t : vtree) (cs : list (list Z)) : Prop := forall c l, In c cs -> In l c -> l <> 0%Z /\ In (Z.abs_N l) (leaves t).
(** libsdd works for every vtree over distinct positive variables *)
Definition libs_ok (libs : vtree -> sddlib) : Prop :=
  forall svt, NoDup (leaves svt) -> (forall v, In v (leaves svt) -> v <> 0%N) -> exists inv, lib_ok svt (libs svt) inv.

Section Full.
Context {P : pops} (val : P -> R) (HP : pexact P val).
Lemma compile_setup libs (m : mgr P) fl : libs_ok libs -> Inv val fl m ->
  exists vs svt, let vm v := Nlookup v (number 1 vs) in let f := named 1 vs in
    (forall cs, Compile libs cs fl m = (do (r, s) <- ConstructSddFromCnf (libs svt) cs vm (L_new (libs svt)) ;;
       do (x, m1) <- ConvertSddToPsdd (L_nodes (libs svt) s) (L_topo (libs svt) s r) r svt fl (fun _ => None) m ;; Ok (fst x, m1))) /\
    (exists inv, lib_ok svt (libs svt) inv) /\ rename_vtree f svt = Some (m_vt m) /\
    (forall v w, vm v = Some w -> w <> 0%N /\ In w (leaves svt)) /\
    (forall v, In v (leaves (m_vt m)) -> exists w, vm v = Some w) /\ (forall v w, vm v = Some w -> f w = Some v) /\
    (forall v w, vm v = Some w -> In v (leaves (m_vt m))).
Proof.
  intros LO I. destruct (variables_under_spec [] (m_vt m)) as (vs & Evs & PM).
  assert (NoDup vs) as ND by (eapply Permutation_NoDup; [symmetry; exact PM|apply (wf_leaves _ (proj1 I))]).
  set (vm := fun v => Nlookup v (number 1 vs)).
  assert (covers vm (m_vt m)) as CV.
  { intros v Hv. destruct (number_in vs 1 v) as [w Hw]; [eapply Permutation_in; [symmetry; exact PM|auto]|]. unfold vm. congruence. }
  destruct (copy_vtree_spec vm (fun _ => None) [] (m_vt m) CV) as (svt & d' & E & RN & _).
  assert (forall v w, vm v = Some w -> named 1 vs w = Some v) as NN by (intros v w; apply named_number; auto).
  assert (forall v w, vm v = Some w -> In v (leaves (m_vt m))) as INV.
  { intros v w Hw. apply number_spec in Hw as [_ Hw]. eapply Permutation_in; eauto. }
  exists vs, svt. cbv zeta. fold vm. split; [|split; [|split; [|split; [|split; [|split]]]]]; auto.
  - intros cs. unfold Compile. rewrite Evs. cbn [bind]. cbv zeta. fold vm. rewrite E. cbn [bind]. reflexivity.
  - apply LO.
    + pose proof (rename_leaves _ _ _ RN) as F. pose proof (wf_leaves _ (proj1 I)) as NDm. clear - F NDm NN.
      induction F as [|v w vs' ws H F IH]; constructor; inversion NDm; subst; auto.
      intros Hw. destruct (Forall2_in_r _ _ _ _ F Hw) as (v' & Hv' & E').
      assert (v = v') by (pose proof (NN _ _ H); pose proof (NN _ _ E'); congruence). subst. contradiction.
    + intros w Hw. destruct (Forall2_in_r _ _ _ _ (rename_leaves _ _ _ RN) Hw) as (v & Hv & Ev). apply number_spec in Ev. lia.
  - eapply rename_inv; [|exact RN]. intros v w _. apply NN.
  - intros v w Hw. split; [apply number_spec in Hw; lia|].
    destruct (Forall2_in_l _ _ _ _ (rename_leaves _ _ _ RN) (INV v w Hw)) as (w' & Hw' & Ew'). congruence.
  - intros v Hv. apply CV in Hv. destruct (vm v); [eauto|congruence].
Qed.
Theorem compile_full libs cs fl (m : mgr P) : libs_ok libs -> Inv val fl m -> (forall v, In v (leaves (m_vt m)) -> v <> 0%N) ->
  in_vtree (m_vt m) cs ->
  ((forall x, cnf_sat cs x = false) -> Compile libs cs fl m = Ok (None, m)) /\
  ((exists x, cnf_sat cs x = true) -> exists i m' t, Compile libs cs fl m = Ok (Some i, m') /\ Inv val fl m' /\ mext fl m m' /\
     vt_of (m_heap m') i = Some [] /\ Rep val (m_heap m') i t /\ In i (m_live m') /\ conforms (m_vt m) t /\ deterministic t /\ positive t /\
     (forall x, base t x = cnf_sat cs x) /\ (forall x, weight t x = if cnf_sat cs x then 1%R else 0%R) /\
     forall L x0, SerializePsddNodes (m_heap m') [i] = Ok L -> ModelCount (m_heap m') L = Ok (count_over (leaves (m_vt m)) (cnf_sat cs) x0)).
Proof.
  intros LO I NZ SC. destruct (compile_setup libs m fl LO I) as (vs & svt & EC & [inv OK] & RN & VM & CV & NN & INV). cbv zeta in *.
  set (vm := fun v => Nlookup v (number 1 vs)) in *. set (f := named 1 vs) in *.
  assert (Forall (in_scope vm) cs) as FS.
  { apply Forall_forall. intros c Hc l Hl. destruct (SC c l Hc Hl) as [A B]. split; auto. destruct (CV _ B) as [w Hw]. unfold vm in *. congruence. }
  destruct (cnf_spec svt (libs svt) inv OK vm VM cs FS (L_new (libs svt)) _ _ (lo_true _ _ _ OK _ (lo_new _ _ _ OK))) as (r & s & ER & IV & st & SR & W & MD).
  specialize (EC cs). unfold ConstructSddFromCnf in EC. rewrite ER in EC. cbn [bind] in EC.
  assert (topo_order (L_nodes (libs svt) s) r (L_topo (libs svt) s r)) as TO by (eapply (lo_topo _ _ _ OK s r); split; [exact IV|exists st; eauto]).
  assert (forall x, models st (pull f x) = cnf_sat cs x) as MP.
  { intros x. rewrite MD. simpl. apply forallb_in_ext. intros c Hc. apply existsb_ext. intros l Hl.
    destruct (SC c l Hc Hl) as [_ B]. destruct (CV _ B) as [w Hw]. change (vm (Z.abs_N l) = Some w) in Hw. rewrite Hw. unfold pull, lit_sat. rewrite (NN _ _ Hw). auto. }
  assert (forall y, models st y = cnf_sat cs (fun v => match vm v with Some w => y w | None => false end)) as MY.
  { intros y. rewrite MD. simpl. apply forallb_in_ext. intros c Hc. apply existsb_ext. intros l Hl.
    destruct (SC c l Hc Hl) as [_ B]. destruct (CV _ B) as [w Hw]. change (vm (Z.abs_N l) = Some w) in Hw. rewrite Hw. unfold lit_sat. rewrite Hw. auto. }
  destruct (from_sdd_full val HP (L_nodes (libs svt) s) svt f fl [] (m_vt m) (L_topo (libs svt) s r) r st (fun _ => None) m RN I) as [K1 K2]; auto.
  unfold ConvertSddToPsdd in EC. change (@Some (list bool) []) with (@Some path []) in EC. split.
  - intros U. rewrite EC, K1; auto. intros y. rewrite MY. auto.
  - intros [x Hx]. destruct K2 as (i & d' & m' & E & I' & X & (t & R1 & R2 & R3 & R4 & R5 & R6 & R7 & R8) & _ & _ & _ & _).
    { exists (pull f x). rewrite MP. auto. }
    exists i, m', t. rewrite EC, E. cbn [bind fst]. split; auto. split; auto. split; auto. split; auto. split; auto. split; auto. split; auto. split; auto.
    split; auto. split; [intros; rewrite R7; auto|]. split; [intros; rewrite R8, MP; auto|].
    intros L x0 EL. assert (psdd_at val m' i (m_vt m) t) as A.
    { split; [apply I'|]. split; auto. exists []. split; auto. rewrite (me_vt _ _ _ X). reflexivity. }
    rewrite (count_full val m' i (m_vt m) t L x0 A R5 EL). f_equal. apply count_over_ext. intros y. rewrite R7. auto.
Qed.
Theorem compile_unknown libs cs fl (m : mgr P) c l : libs_ok libs -> Inv val fl m ->
  (forall c l, In c cs -> In l c -> l <> 0%Z) -> In c cs -> In l c -> ~ In (Z.abs_N l) (leaves (m_vt m)) -> Compile libs cs fl m = UB.
Proof.
  intros LO I NZ Hc Hl NV. destruct (compile_setup libs m fl LO I) as (vs & svt & EC & [inv OK] & RN & VM & CV & NN & INV). cbv zeta in *.
  rewrite EC. unfold ConstructSddFromCnf. set (vm := fun v => Nlookup v (number 1 vs)) in *.
  rewrite (cnf_unknown svt (libs svt) inv OK vm VM cs c Hc) with (f := fun _ => true); auto.
  - intros H. destruct (H l Hl) as [_ B]. destruct (vm (Z.abs_N l)) as [w|] eqn:V; [|congruence]. apply NV. eapply INV. exact V.
  - apply (lo_true _ _ _ OK). apply (lo_new _ _ _ OK).
Qed.
End Full.
