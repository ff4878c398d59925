(** PSDD files whose writing stopped inside a line. *)
From Coq Require Import Ascii String Reals Lra Permutation.
From Verif Require Import Base Param ParamProofs Vtree VtreeProofs Spec SpecProofs Heap Manager HeapProofs SerProofs RepProofs LoadProofs Text IO IOProofs Cut.

(** ** Streams with nothing left *)
Definition dead (st : stream) : Prop := snd st = false \/ skip_ws (fst st) = [].
Lemma ex_int_dead lo hi st : dead st -> fst (ex_int lo hi st) = None /\ dead (snd (ex_int lo hi st)).
Proof.
  destruct st as [s g]. unfold dead, ex_int. cbn [fst snd]. intros [->|E]; [cbn; auto|]. destruct g; cbn [negb]; [|cbn; auto]. rewrite E. cbn. auto.
Qed.
Lemma ex_word_dead {A} (rd : text -> option A) z st : dead st -> fst (ex_word rd z st) = None /\ dead (snd (ex_word rd z st)).
Proof.
  destruct st as [s g]. unfold dead, ex_word. cbn [fst snd]. intros [->|E]; [cbn; auto|]. destruct g; cbn [negb]; [|cbn; auto]. rewrite E. cbn. auto.
Qed.
Lemma dead_nil g : dead ([], g).
Proof. right. reflexivity. Qed.
Lemma firstn_sp_short y w rest : y < List.length (sp w) -> firstn y (sp w ++ rest) = firstn y (sp w).
Proof. intros H. rewrite firstn_app. replace (y - List.length (sp w)) with 0 by lia. cbn [firstn]. apply app_nil_r. Qed.
Lemma firstn_sp_long y w rest : List.length (sp w) <= y -> firstn y (sp w ++ rest) = sp w ++ firstn (y - List.length (sp w)) rest.
Proof. intros H. rewrite firstn_app, firstn_all2 by auto. reflexivity. Qed.
Lemma starts_firstn y s : starts_blank s -> starts_blank (firstn y s).
Proof. destruct s, y; simpl; auto. Qed.
Lemma take_digits_prefix u : forall y, exists u', take_digits (firstn y (digits u)) = (u', []) /\ (0 < y -> u <> Decimal.Nil -> u' <> Decimal.Nil).
Proof.
  induction u; intros [|y]; cbn [digits firstn];
    try solve [exists Decimal.Nil; split; [reflexivity|intros H; inversion H]]; try solve [exists Decimal.Nil; split; [reflexivity|congruence]];
    destruct (IHu y) as (u' & E & _); eexists; (split; [cbn [take_digits digit_of]; rewrite E; reflexivity|discriminate]).
Qed.
(** A number of which only a part is left, or all of it *)
Lemma ex_int_cut lo hi y n rest : (lo <= 0)%Z -> starts_blank rest ->
  dead (snd (ex_int lo hi (firstn y (sp (show_N n) ++ rest), true)))
  \/ (List.length (sp (show_N n)) <= y /\ ex_int lo hi (firstn y (sp (show_N n) ++ rest), true) = (Some (Z.of_N n), (firstn (y - List.length (sp (show_N n))) rest, true))).
Proof.
  intros HL HR. destruct (Nat.lt_ge_cases y (List.length (sp (show_N n)))) as [L|L].
  - left. rewrite firstn_sp_short by auto. unfold sp. destruct y as [|y]; cbn [firstn]; [left; reflexivity|].
    unfold ex_int. cbn [negb]. rewrite skip_ws_blank. destruct y as [|y]; [left; reflexivity|].
    destruct (show_N_head n) as (c & w & E & PL & E1 & E2). pose proof (take_digits_prefix (N.to_uint n) (S y)) as (u & TD & _).
    unfold show_N in *. rewrite E in TD |- *. cbn [firstn] in TD |- *. rewrite skip_ws_plain by auto. rewrite E1, E2. cbv iota beta. rewrite TD.
    cbv zeta. repeat match goal with |- context [if ?b then _ else _] => destruct b end; right; reflexivity.
  - rewrite firstn_sp_long by auto. unfold sp at 1 3. cbn [app].
    destruct (Z.leb_spec (Z.of_N n) hi) as [H|H].
    + right. split; auto. apply ex_int_N; auto. apply starts_blank_nodig, starts_firstn; auto.
    + left. unfold ex_int. cbn [negb]. rewrite skip_ws_blank.
      destruct (show_N_head n) as (c & w & E & PL & E1 & E2). rewrite E. cbn [app]. rewrite skip_ws_plain by auto. rewrite E1, E2. cbv iota beta.
      change (c :: w ++ firstn (y - List.length (sp (c :: w))) rest) with ((c :: w) ++ firstn (y - List.length (sp (c :: w))) rest). rewrite <- E. unfold show_N.
      rewrite take_digits_app by (apply starts_blank_nodig, starts_firstn; auto). rewrite is_nil_to_uint, DecimalN.Unsigned.of_to. cbv zeta.
      destruct (Z.eqb lo 0); destruct (Z.ltb_spec hi (Z.of_N n)); try lia; [left; reflexivity|]. destruct (Z.ltb_spec (Z.of_N n) lo); left; reflexivity.
Qed.
Lemma ex_word_cut {A} (rd : text -> option A) z y w rest : Forall plain w -> w <> [] -> starts_blank rest ->
  dead (snd (ex_word rd z (firstn y (sp w ++ rest), true)))
  \/ (List.length (sp w) <= y /\ snd (ex_word rd z (firstn y (sp w ++ rest), true)) = (firstn (y - List.length (sp w)) rest, true)).
Proof.
  intros HW NE HR. destruct (Nat.lt_ge_cases y (List.length (sp w))) as [L|L].
  - left. rewrite firstn_sp_short by auto. unfold sp. destruct y as [|[|y]]; cbn [firstn]; [left; reflexivity|left; reflexivity|].
    destruct w as [|c w]; [congruence|]. cbn [firstn].
    assert (Forall plain (c :: firstn y w)) as F. { inversion HW as [|? ? H1 H2]; subst. constructor; auto. apply Forall_forall. intros x H. apply firstn_In in H. rewrite Forall_forall in H2. auto. }
    replace (blank :: c :: firstn y w) with (blank :: (c :: firstn y w) ++ []) by (rewrite app_nil_r; reflexivity).
    rewrite ex_word_app by (auto || discriminate || exact Logic.I). destruct (rd _); right; reflexivity.
  - rewrite firstn_sp_long by auto.
    assert (ex_word rd z (sp w ++ firstn (y - List.length (sp w)) rest, true) = match rd w with Some a => (Some a, (firstn (y - List.length (sp w)) rest, true)) | None => (Some z, (firstn (y - List.length (sp w)) rest, false)) end) as EX
      by (apply ex_word_app; auto; apply starts_firstn; auto). rewrite EX.
    destruct (rd w); [right; split; [exact L|reflexivity]|left; left; reflexivity].
Qed.

(** ** Lines cut before their last word *)
Ltac rw E := match type of E with _ = ?r => match goal with |- context [ex_int ?a ?b ?z] => replace (ex_int a b z) with r by (symmetry; exact E) end end.
Definition rejects {A} (r : res A) : Prop := forall x, r <> Ok x.
Lemma rejects_bind {A B} (r : res A) (f : A -> res B) : rejects r -> rejects (bind r f).
Proof. intros H x E. destruct r; try discriminate. apply (H a). reflexivity. Qed.
Lemma rejects_then {A B} (r : res A) (f : A -> res B) : (forall a, rejects (f a)) -> rejects (bind r f).
Proof. intros H x E. destruct r; try discriminate. apply (H a x). exact E. Qed.
Lemma rejects_none {A} : rejects (get (@None A)).
Proof. intros x. discriminate. Qed.

Section Lines.
Context {P : pops}.
Notation heap := (heap P). Notation mgr := (mgr P). Notation node := (node P).
Context (show : P -> text) (rd : text -> option P) (log0 : P).
Context (show_plain : forall a, Forall plain (show a)) (show_ne : forall a, show a <> []).

Lemma elems_dead n cache st : dead st -> rejects (read_elems rd log0 (S n) cache st).
Proof.
  intros D. cbn [read_elems]. destruct (ex_int_dead 0 18446744073709551615 st D) as [E _]. unfold ex_u64 at 1.
  destruct (ex_int 0 18446744073709551615 st) as [a st1]. cbn [fst] in E. subst a.
  destruct (ex_u64 st1) as [b st2]. destruct (ex_word rd log0 st2) as [w st3]. apply rejects_bind, rejects_none.
Qed.
Lemma read_elems_short ud es : forall cache y, es <> [] ->
  y + List.length (show (e_param (last es (MkE 0 0 log0)))) <= List.length (concat (map (show_elem show ud) es)) ->
  rejects (read_elems rd log0 (List.length es) cache (firstn y (concat (map (show_elem show ud) es)), true)).
Proof.
  induction es as [|e es IH]; intros cache y NE H; [congruence|]. clear NE. cbn [List.length read_elems map concat].
  set (rest := concat (map (show_elem show ud) es)) in *. assert (starts_blank rest) as SB by apply show_elems_starts.
  cbn [map concat] in H. fold rest in H. unfold show_elem at 1 in H. unfold show_elem at 1. rewrite <- !app_assoc.
  rewrite !app_length in H.
  assert (forall st, dead st -> forall (X : option Z -> stream -> res (list nat * list nat * list P)), (forall st', dead st' -> rejects (X None st')) -> rejects (let '(a, st1) := ex_u64 st in X a st1)) as DI.
  { intros st D X HX. destruct (ex_int_dead 0 18446744073709551615 st D) as [E D']. unfold ex_u64. destruct (ex_int _ _ st). cbn [fst snd] in *. subst. auto. }
  assert (forall st, dead st -> forall (X : option P -> stream -> res (list nat * list nat * list P)), (forall st', dead st' -> rejects (X None st')) -> rejects (let '(a, st1) := ex_word rd log0 st in X a st1)) as DW.
  { intros st D X HX. destruct (ex_word_dead rd log0 st D) as [E D']. destruct (ex_word rd log0 st). cbn [fst snd] in *. subst. auto. }
  destruct (ex_int_cut 0 18446744073709551615 y (ud (e_prime e)) (sp (show_N (ud (e_sub e))) ++ sp (show (e_param e)) ++ rest)) as [D|(Y1 & E1)]; [lia|reflexivity| |].
  { unfold ex_u64 at 1. destruct (ex_int 0 18446744073709551615 (firstn y (sp (show_N (ud (e_prime e))) ++ _), true)) as [a st1]. cbn [snd] in D.
    apply DI; auto. intros st2 D2. apply DW; auto. intros st3 D3. do 2 (apply rejects_then; intros ?). apply rejects_bind, rejects_none. }
  unfold ex_u64 at 1. rewrite E1. clear E1.
  destruct (ex_int_cut 0 18446744073709551615 (y - List.length (sp (show_N (ud (e_prime e))))) (ud (e_sub e)) (sp (show (e_param e)) ++ rest)) as [D|(Y2 & E2)]; [lia|reflexivity| |].
  { unfold ex_u64 at 1. destruct (ex_int 0 18446744073709551615 (firstn _ (sp (show_N (ud (e_sub e))) ++ _), true)) as [b st2]. cbn [snd] in D.
    apply DW; auto. intros st3 D3. do 4 (apply rejects_then; intros ?). apply rejects_bind, rejects_none. }
  unfold ex_u64 at 1. rewrite E2. clear E2.
  set (y2 := y - List.length (sp (show_N (ud (e_prime e)))) - List.length (sp (show_N (ud (e_sub e))))) in *.
  destruct es as [|e' es'].
  - cbn [last map concat List.length] in H. subst rest. cbn [map concat] in *. rewrite app_nil_r. cbn [List.length] in *.
    assert (dead (firstn y2 (sp (show (e_param e))), true)) as D. { unfold sp. cbn [List.length] in *. destruct y2 as [|[|y2']] eqn:EY; [right; reflexivity|right; reflexivity|]. exfalso. unfold sp in *. cbn [List.length] in *. lia. }
    apply DW; auto. intros st3 D3. do 4 (apply rejects_then; intros ?). apply rejects_bind, rejects_none.
  - destruct (ex_word_cut rd log0 y2 (show (e_param e)) rest) as [D|(Y3 & E3)]; auto.
    + destruct (ex_word rd log0 (firstn y2 (sp (show (e_param e)) ++ rest), true)) as [w st3]. cbn [snd] in D.
      do 5 (apply rejects_then; intros ?). apply rejects_bind. apply elems_dead; auto.
    + destruct (ex_word rd log0 (firstn y2 (sp (show (e_param e)) ++ rest), true)) as [w st3]. cbn [snd] in E3. subst st3.
      do 5 (apply rejects_then; intros ?). apply rejects_bind. apply IH; [discriminate|]. fold rest. change (last (e :: e' :: es') (MkE 0 0 log0)) with (last (e' :: es') (MkE 0 0 log0)) in H. lia.
Qed.

(** the last word of the line of a node *)
Definition last_word (nd : node) : text :=
  match n_body nd with
  | BLit l => show_Z l
  | BTop v pt pf => show pt
  | BDec es => show (e_param (last es (MkE 0 0 log0)))
  end.
Lemma line_cut_rejected fl st root ud k (nd : node) x : match n_body nd with BDec es => es <> [] | _ => True end ->
  1 <= x -> x + List.length (last_word nd) <= List.length (show_node show root ud k nd) -> rejects (read_line rd log0 fl st (firstn x (show_node show root ud k nd))).
Proof.
  intros NE X0 X1. destruct x as [|y]; [lia|]. clear X0. destruct st as [[[cache ro] psz] m]. unfold show_node, last_word in *.
  destruct (n_body nd) as [l|v pt pf|es]; cbn [firstn]; unfold read_line; cbn [head_char Ascii.eqb Bool.eqb]; cbv iota; cbn [substr skipn List.length Nat.ltb Nat.leb bind assert];
    cbn [List.length] in X1; rewrite !app_length in X1; apply rejects_bind.
  - destruct (ex_int_cut 0 18446744073709551615 y k (sp (show_N (N.of_nat (vpos root (n_vt nd)))) ++ sp (show_Z l))) as [D|(Y1 & E1)]; [lia|reflexivity| |].
    + unfold ex_u64. destruct (ex_int 0 18446744073709551615 _) as [k' s1]. cbn [snd] in D. destruct (ex_int_dead 0 4294967295 s1 D) as [_ D2]. unfold ex_u32. destruct (ex_int 0 4294967295 s1) as [w s2]. cbn [snd] in D2.
      destruct (ex_int_dead (-2147483648) 2147483647 s2 D2) as [E3 _]. unfold ex_i32. destruct (ex_int _ _ s2) as [l' s3]. cbn [fst] in E3. subst. apply rejects_bind, rejects_none.
    + unfold ex_u64. rw E1. clear E1. set (y1 := y - List.length (sp (show_N k))) in *.
      replace (sp (show_N (N.of_nat (vpos root (n_vt nd)))) ++ sp (show_Z l)) with (sp (show_N (N.of_nat (vpos root (n_vt nd)))) ++ (sp (show_Z l))) by reflexivity.
      destruct (ex_int_cut 0 4294967295 y1 (N.of_nat (vpos root (n_vt nd))) (sp (show_Z l))) as [D|(Y2 & E2)]; [lia|reflexivity| |].
      * unfold ex_u32. destruct (ex_int 0 4294967295 _) as [w s2]. cbn [snd] in D.
        destruct (ex_int_dead (-2147483648) 2147483647 s2 D) as [E3 _]. unfold ex_i32. destruct (ex_int _ _ s2) as [l' s3]. cbn [fst] in E3. subst. apply rejects_bind, rejects_none.
      * unfold ex_u32. rw E2. clear E2. set (y2 := y1 - List.length (sp (show_N (N.of_nat (vpos root (n_vt nd)))))) in *.
        assert (dead (firstn y2 (sp (show_Z l)), true)) as D. { unfold sp in *. cbn [List.length] in *. destruct y2 as [|[|y2']] eqn:EY; [right; reflexivity|right; reflexivity|lia]. }
        destruct (ex_int_dead (-2147483648) 2147483647 _ D) as [E3 _]. unfold ex_i32. destruct (ex_int (-2147483648) _ _) as [l' s3]. cbn [fst] in E3. subst. apply rejects_bind, rejects_none.
  - assert (forall (k0 : option Z) s1, dead s1 -> rejects (let '(_, s2) := ex_u32 s1 in let '(v0, s3) := ex_u32 s2 in let '(neg, s4) := ex_word rd log0 s3 in let '(pos, _) := ex_word rd log0 s4 in
        do v' <- get v0 ;; do pos' <- get pos ;; do neg' <- get neg ;; do (i, m1) <- GetPsddTopNode m (Z.to_N v') fl pos' neg' ;; do k' <- get k0 ;; Ok (k', i, m1))) as D0.
    { intros k0 s1 D. destruct (ex_int_dead 0 4294967295 s1 D) as [_ D1]. unfold ex_u32 at 1. destruct (ex_int _ _ s1) as [a s2]. cbn [snd] in D1.
      destruct (ex_int_dead 0 4294967295 s2 D1) as [E2 _]. unfold ex_u32. destruct (ex_int _ _ s2) as [b s3]. cbn [fst] in E2. subst b.
      destruct (ex_word rd log0 s3) as [c s4]. destruct (ex_word rd log0 s4) as [d s5]. apply rejects_bind, rejects_none. }
    destruct (ex_int_cut 0 18446744073709551615 y k (sp (show_N (N.of_nat (vpos root (n_vt nd)))) ++ sp (show_N v) ++ sp (show pf) ++ sp (show pt))) as [D|(Y1 & E1)]; [lia|reflexivity| |].
    { unfold ex_u64 in *. destruct (ex_int 0 18446744073709551615 _) as [k' s1]. cbn [snd] in D. exact (D0 k' s1 D). }
    clear D0. unfold ex_u64. rw E1. clear E1. set (y1 := y - List.length (sp (show_N k))) in *.
    destruct (ex_int_cut 0 4294967295 y1 (N.of_nat (vpos root (n_vt nd))) (sp (show_N v) ++ sp (show pf) ++ sp (show pt))) as [D|(Y2 & E2)]; [lia|reflexivity| |].
    { unfold ex_u32 at 1. destruct (ex_int 0 4294967295 _) as [w s2]. cbn [snd] in D.
      destruct (ex_int_dead 0 4294967295 s2 D) as [E2 _]. unfold ex_u32. destruct (ex_int _ _ s2) as [b s3]. cbn [fst] in E2. subst b.
      destruct (ex_word rd log0 s3) as [c s4]. destruct (ex_word rd log0 s4) as [d s5]. apply rejects_bind, rejects_none. }
    unfold ex_u32 at 1. rw E2. clear E2. set (y2 := y1 - List.length (sp (show_N (N.of_nat (vpos root (n_vt nd)))))) in *.
    destruct (ex_int_cut 0 4294967295 y2 v (sp (show pf) ++ sp (show pt))) as [D|(Y3 & E3)]; [lia|reflexivity| |].
    { unfold ex_u32. destruct (ex_int 0 4294967295 _) as [w s3]. cbn [snd] in D.
      destruct (ex_word_dead rd log0 s3 D) as [_ D1]. destruct (ex_word rd log0 s3) as [c s4]. cbn [snd] in D1.
      destruct (ex_word_dead rd log0 s4 D1) as [E4 _]. destruct (ex_word rd log0 s4) as [d s5]. cbn [fst] in E4. subst d. apply rejects_then; intros ?. apply rejects_bind, rejects_none. }
    unfold ex_u32. rw E3. clear E3. set (y3 := y2 - List.length (sp (show_N v))) in *.
    assert (dead (snd (ex_word rd log0 (firstn y3 (sp (show pf) ++ sp (show pt)), true)))) as D.
    { destruct (ex_word_cut rd log0 y3 (show pf) (sp (show pt))) as [D|(Y4 & E4)]; auto; [reflexivity|]. rewrite E4.
      unfold sp in *. cbn [List.length] in *. destruct (y3 - S (List.length (show pf))) as [|[|y4]] eqn:EY; [right; reflexivity|right; reflexivity|lia]. }
    destruct (ex_word rd log0 _) as [c s4]. cbn [snd] in D.
    destruct (ex_word_dead rd log0 s4 D) as [E4 _]. destruct (ex_word rd log0 s4) as [d s5]. cbn [fst] in E4. subst d. apply rejects_then; intros ?. apply rejects_bind, rejects_none.
  - assert (starts_blank (concat (map (show_elem show ud) es))) as SB by apply show_elems_starts.
    set (rest := concat (map (show_elem show ud) es)) in *.
    assert (forall n (x : list nat * list nat) s3 (k0 : option Z), dead s3 -> rejects (do (x, ws) <- read_elems rd log0 n cache s3 ;; let '(ps, ss) := x in do p0 <- get (hd_error ps) ;; do s0 <- get (hd_error ss) ;;
      do vp <- get (vt_of (m_heap m) p0) ;; do vs <- get (vt_of (m_heap m) s0) ;; do _ <- assert (oeqb (vparent vp) (vparent vs)) ;; do next <- get (vparent vp) ;;
      do (i, m1) <- new_dec m next fl ps ss ws ;; do k' <- get k0 ;; Ok (k', i, m1))) as D0.
    { intros n _ s3 k0 D. destruct n as [|n]; [cbn [read_elems bind hd_error get]; intros ? Q; discriminate Q|]. apply rejects_bind, elems_dead; auto. }
    destruct (ex_int_cut 0 18446744073709551615 y k (sp (show_N (N.of_nat (vpos root (n_vt nd)))) ++ sp (show_N (N.of_nat (List.length es))) ++ rest)) as [D|(Y1 & E1)]; [lia|reflexivity| |].
    { unfold ex_u64 at 1. destruct (ex_int 0 18446744073709551615 _) as [k' s1]. cbn [snd] in D. destruct (ex_int_dead (-2147483648) 2147483647 s1 D) as [_ D1]. unfold ex_i32. destruct (ex_int _ _ s1) as [a s2]. cbn [snd] in D1.
      destruct (ex_int_dead 0 18446744073709551615 s2 D1) as [E2 _]. unfold ex_u64. destruct (ex_int _ _ s2) as [b s3]. cbn [fst] in E2. subst b. apply rejects_bind, rejects_none. }
    unfold ex_u64 at 1. rw E1. clear E1. set (y1 := y - List.length (sp (show_N k))) in *.
    destruct (ex_int_cut (-2147483648) 2147483647 y1 (N.of_nat (vpos root (n_vt nd))) (sp (show_N (N.of_nat (List.length es))) ++ rest)) as [D|(Y2 & E2)]; [lia|reflexivity| |].
    { unfold ex_i32. destruct (ex_int _ _ _) as [a s2]. cbn [snd] in D.
      destruct (ex_int_dead 0 18446744073709551615 s2 D) as [E2 _]. unfold ex_u64. destruct (ex_int _ _ s2) as [b s3]. cbn [fst] in E2. subst b. apply rejects_bind, rejects_none. }
    unfold ex_i32. rw E2. clear E2. set (y2 := y1 - List.length (sp (show_N (N.of_nat (vpos root (n_vt nd)))))) in *.
    destruct (ex_int_cut 0 18446744073709551615 y2 (N.of_nat (List.length es)) rest) as [D|(Y3 & E3)]; [lia|auto| |].
    { unfold ex_u64. destruct (ex_int _ _ _) as [b s3]. cbn [snd] in D. destruct b as [b|]; [|apply rejects_bind, rejects_none]. exact (D0 (Z.to_nat b) ([], []) s3 (Some (Z.of_N k)) D). }
    unfold ex_u64. rw E3. clear E3. cbn [get bind]. replace (Z.to_nat (Z.of_N (N.of_nat (List.length es)))) with (List.length es) by lia.
    apply rejects_bind. apply read_elems_short; auto. fold rest. lia.
Qed.
End Lines.

(** ** Lines cut inside their last word *)
Section Accepted.
Context {P : pops} (val : P -> R) (HP : pexact P val).
Notation heap := (heap P). Notation mgr := (mgr P). Notation node := (node P).
Context (show : P -> text) (rd : text -> option P) (log0 : P) (rnd : P -> P).
Context (show_plain : forall a, Forall plain (show a)) (show_ne : forall a, show a <> []).
Context (T : N -> R -> R -> Prop) (Tfun : forall v a b b', T v a b -> T v a b' -> b = b').
Notation vr := (vr val rnd). Notation tops_T := (tops_T T).

(** the parameter that a word is read as: the one that a failed conversion leaves if it is none *)
Definition read_param (w : text) : P := match rd w with Some a => a | None => log0 end.
(** the elements with another parameter at the last one *)
Fixpoint last_weight (x : R) (tes : list (ptree * ptree * R)) : list (ptree * ptree * R) :=
  match tes with [] => [] | te :: tes' => match tes' with [] => [(tp te, ts te, x)] | _ => te :: last_weight x tes' end end.
(** the line of a node without its last word *)
Definition before_last (sroot : vtree) (ud : udN) (k : N) (nd : node) : text :=
  firstn (List.length (show_node show sroot ud k nd) - List.length (last_word show log0 nd) - 1) (show_node show sroot ud k nd).

Fixpoint elems_text_last (ud : udN) (es : list (elem P)) (w : text) : text :=
  match es with
  | [] => []
  | [e] => sp (show_N (ud (e_prime e))) ++ sp (show_N (ud (e_sub e))) ++ sp w
  | e :: es' => show_elem show ud e ++ elems_text_last ud es' w
  end.
Lemma elems_text_same ud es : es <> [] -> concat (map (show_elem show ud) es) = elems_text_last ud es (show (e_param (last es (MkE 0 0 log0)))).
Proof.
  induction es as [|e [|e' es] IH]; intros NE; [congruence|cbn [map concat elems_text_last last]; apply app_nil_r|]. clear NE.
  change (last (e :: e' :: es) (MkE 0 0 log0)) with (last (e' :: es) (MkE 0 0 log0)).
  cbn [map concat]. change (elems_text_last ud (e :: e' :: es) (show (e_param (last (e' :: es) (MkE 0 0 log0))))) with (show_elem show ud e ++ elems_text_last ud (e' :: es) (show (e_param (last (e' :: es) (MkE 0 0 log0))))).
  rewrite <- IH by discriminate. reflexivity.
Qed.
Lemma elems_text_split ud es : es <> [] -> exists A, forall w, elems_text_last ud es w = A ++ sp w.
Proof.
  induction es as [|e [|e' es] IH]; intros NE; [congruence| |].
  - exists (sp (show_N (ud (e_prime e))) ++ sp (show_N (ud (e_sub e)))). intros w. cbn [elems_text_last]. apply app_assoc.
  - destruct IH as (A & HA); [discriminate|]. exists (show_elem show ud e ++ A). intros w.
    change (elems_text_last ud (e :: e' :: es) w) with (show_elem show ud e ++ elems_text_last ud (e' :: es) w). rewrite HA. apply app_assoc.
Qed.
(** the line of a node with another last word *)
Definition line_with (sroot : vtree) (ud : udN) (k : N) (nd : node) (w : text) : text :=
  match n_body nd with
  | BLit l => "L"%char :: sp (show_N k) ++ sp (show_N (N.of_nat (vpos sroot (n_vt nd)))) ++ sp w
  | BTop v pt pf => "T"%char :: sp (show_N k) ++ sp (show_N (N.of_nat (vpos sroot (n_vt nd)))) ++ sp (show_N v) ++ sp (show pf) ++ sp w
  | BDec es => "D"%char :: sp (show_N k) ++ sp (show_N (N.of_nat (vpos sroot (n_vt nd)))) ++ sp (show_N (N.of_nat (List.length es))) ++ elems_text_last ud es w
  end.
Lemma line_split sroot ud k (nd : node) : match n_body nd with BDec es => es <> [] | _ => True end ->
  show_node show sroot ud k nd = before_last sroot ud k nd ++ sp (last_word show log0 nd) /\ forall w, line_with sroot ud k nd w = before_last sroot ud k nd ++ sp w.
Proof.
  intros NE. assert (exists A, show_node show sroot ud k nd = A ++ sp (last_word show log0 nd) /\ forall w, line_with sroot ud k nd w = A ++ sp w) as (A & H1 & H2).
  { unfold show_node, line_with, last_word. destruct (n_body nd) as [l|v pt pf|es].
    - eexists ("L"%char :: sp (show_N k) ++ sp (show_N (N.of_nat (vpos sroot (n_vt nd))))). cbn [app]. rewrite <- !app_assoc. split; [reflexivity|]. intros w. rewrite <- !app_assoc. reflexivity.
    - eexists ("T"%char :: sp (show_N k) ++ sp (show_N (N.of_nat (vpos sroot (n_vt nd)))) ++ sp (show_N v) ++ sp (show pf)). cbn [app]. rewrite <- !app_assoc. split; [reflexivity|]. intros w. rewrite <- !app_assoc. reflexivity.
    - destruct (elems_text_split ud es NE) as (A & HA).
      eexists ("D"%char :: sp (show_N k) ++ sp (show_N (N.of_nat (vpos sroot (n_vt nd)))) ++ sp (show_N (N.of_nat (List.length es))) ++ A). cbn [app]. rewrite <- !app_assoc.
      split; [rewrite (elems_text_same ud es NE), HA; reflexivity|]. intros w. rewrite HA, <- !app_assoc. reflexivity. }
  assert (before_last sroot ud k nd = A) as ->; [|auto].
  unfold before_last. rewrite H1, app_length. unfold sp. cbn [List.length]. replace (_ - _ - 1) with (List.length A + 0) by lia. rewrite firstn_app_2. apply app_nil_r.
Qed.

Lemma ex_last w : Forall plain w -> w <> [] -> ex_word rd log0 (sp w, true) = (Some (read_param w), ([], match rd w with Some _ => true | None => false end)).
Proof.
  intros HW NE. pose proof (ex_word_app rd log0 w [] HW NE Logic.I) as E. rewrite app_nil_r in E. etransitivity; [exact E|]. unfold read_param. destruct (rd w); reflexivity.
Qed.

Section Read.
Context (sroot : vtree) (hs : heap) (root : nat) (L : list nat) (SO : ser_of hs root L) (HO : heap_ok sroot hs) (HR : root < List.length hs).
Context (q0 : path) (s : vtree) (t0 : ptree) (Hq0 : vt_of hs root = Some q0) (Hs : subtree sroot q0 = Some s)
  (Rt : Rep vr hs root t0) (TT : tops_T t0) (FT : fits sroot hs)
  (RD : forall i nd a, reach hs root i -> nth_error hs i = Some nd -> In a (params nd) -> rd (show a) = Some (rnd a)).
Context (fl : N) (pb : path).
Notation LN := (line show sroot hs L). Notation FD := (fid L). Notation image := (image val rnd hs L q0 fl pb).

Lemma read_elems_last w cache (m : mgr) (es : list (elem P)) tes u : Forall plain w -> w <> [] -> es <> [] -> (forall e, In e es -> rd (show (e_param e)) = Some (rnd (e_param e))) ->
  (forall e, In e es -> In (e_prime e) L /\ In (e_sub e) L) ->
  (forall e, In e es -> image cache m (e_prime e) /\ image cache m (e_sub e)) ->
  (forall e, In e es -> vt_of hs (e_prime e) = Some (false :: u ++ q0) /\ vt_of hs (e_sub e) = Some (true :: u ++ q0)) ->
  Forall2 (ElemRep vr hs) es tes ->
  exists es1 tes1, read_elems rd log0 (List.length es) cache (elems_text_last FD es w, true) =
      Ok (map e_prime es1, map e_sub es1, map e_param es1) /\
    Forall (fun e => vt_of (m_heap m) (e_prime e) = Some (false :: u ++ pb) /\ vt_of (m_heap m) (e_sub e) = Some (true :: u ++ pb)) es1 /\
    Forall2 (ElemRep val (m_heap m)) es1 tes1 /\
    Forall2 (fun te te1 => shuffled (tp te) (tp te1) /\ shuffled (ts te) (ts te1) /\ tw te1 = tw te) (last_weight (val (read_param w)) tes) tes1.
Proof.
  intros HW NW NE H1 H2 H3 H4 F. revert NE H1 H2 H3 H4. induction F as [|e te es tes (R1 & R2 & R3) F IH]; intros NE H1 H2 H3 H4; [congruence|]. clear NE.
  destruct (H2 e (or_introl eq_refl)) as [I1 I2]. destruct (H3 e (or_introl eq_refl)) as [(j1 & u1 & t1 & t1' & A1 & A2 & A3 & A4 & A5 & _) (j2 & u2 & t2 & t2' & B1 & B2 & B3 & B4 & B5 & _)].
  destruct (H4 e (or_introl eq_refl)) as [V1 V2].
  assert (u1 = false :: u) as ->. { rewrite V1 in A2. injection A2 as A2. change (false :: u ++ q0) with ((false :: u) ++ q0) in A2. apply app_inv_tail in A2. auto. }
  assert (u2 = true :: u) as ->. { rewrite V2 in B2. injection B2 as B2. change (true :: u ++ q0) with ((true :: u) ++ q0) in B2. apply app_inv_tail in B2. auto. }
  rewrite (Rep_fun vr _ _ _ _ A3 R1) in A5. rewrite (Rep_fun vr _ _ _ _ B3 R2) in B5.
  pose proof (fid_fits sroot hs root L SO HO HR FT (e_prime e) I1) as FF1. pose proof (fid_fits sroot hs root L SO HO HR FT (e_sub e) I2) as FF2.
  destruct es as [|e' es'].
  - inversion F; subst. exists [MkE j1 j2 (read_param w)], [(t1', t2', val (read_param w))].
    split; [|split; [|split]].
    + cbn [List.length elems_text_last read_elems].
      rewrite (ex_u64_N hs root HR); [|auto|reflexivity]. rewrite (ex_u64_N hs root HR); [|auto|reflexivity].
      rewrite ex_last by auto. cbn [get bind]; rewrite A1; cbn [bind]; rewrite B1; reflexivity.
    + constructor; auto. split; [apply A4|apply B4].
    + constructor; auto. split; [apply A4|]. split; [apply B4|]. reflexivity.
    + cbn [last_weight]. constructor; auto.
  - destruct IH as (es1 & tes1 & E1 & F1 & F2 & F3); [discriminate| | | | |].
    { intros; apply H1; right; auto. } { intros; apply H2; right; auto. } { intros; apply H3; right; auto. } { intros; apply H4; right; auto. }
    exists (MkE j1 j2 (rnd (e_param e)) :: es1), ((t1', t2', tw te) :: tes1).
    split; [|split; [|split]].
    + change (elems_text_last FD (e :: e' :: es') w) with (show_elem show FD e ++ elems_text_last FD (e' :: es') w). change (List.length (e :: e' :: es')) with (S (List.length (e' :: es'))). cbn [read_elems]. unfold show_elem at 1. rewrite <- !app_assoc.
      rewrite (ex_u64_N hs root HR); [|auto|reflexivity]. rewrite (ex_u64_N hs root HR); [|auto|reflexivity].
      rewrite (ex_param show rd log0 rnd show_plain show_ne); [|apply H1; left; auto|destruct es'; reflexivity]. cbn [get bind]. rewrite A1. cbn [bind]. rewrite B1. cbn [bind].
      match goal with |- context [read_elems rd log0 (List.length (e' :: es')) cache ?z] => replace (read_elems rd log0 (List.length (e' :: es')) cache z) with (Ok (map e_prime es1, map e_sub es1, map e_param es1)) by (symmetry; exact E1) end. cbn [bind]. reflexivity.
    + constructor; auto. split; [apply A4|apply B4].
    + constructor; auto. split; [apply A4|]. split; [apply B4|]. exact R3.
    + inversion F as [|? te' ? tes' ? ?]; subst. change (last_weight (val (read_param w)) (te :: te' :: tes')) with (te :: last_weight (val (read_param w)) (te' :: tes')).
      constructor; auto.
Qed.

(** what reading the lines before the line of i leaves *)
Definition ready (m : mgr) (L2 : list nat) (st : rstate (P := P)) : Prop :=
  exists cache ro z m1, st = (cache, ro, Some z, m1) /\ InvT val T fl m1 /\ mext fl m m1 /\ forall c, In c L2 -> image cache m1 c.
Lemma lines_before L1 i L2 (m : mgr) : L = L1 ++ i :: L2 -> subtree (m_vt m) pb = Some s -> InvT val T fl m ->
  exists st, foldM (read_line rd log0 fl) (firstn (9 + List.length L2) (file_lines show sroot hs L)) ([], None, None, m) = Ok st /\ ready m L2 st.
Proof.
  intros EL Sm I.
  assert (firstn (9 + List.length L2) (file_lines show sroot hs L) = header ++ [count_line L] ++ map LN (rev L2)) as EF.
  { unfold file_lines. transitivity (firstn (List.length header + (1 + List.length L2)) (header ++ [count_line L] ++ map LN (rev L))); [reflexivity|].
    rewrite (firstn_app_2 (1 + List.length L2) header). f_equal. cbn [app plus firstn]. f_equal.
    assert (rev L = rev L2 ++ i :: rev L1) as ER by (rewrite EL; rewrite rev_app_distr; cbn [rev]; rewrite <- app_assoc; reflexivity). rewrite ER, map_app.
    replace (List.length L2) with (List.length (map LN (rev L2)) + 0) by (rewrite map_length, rev_length; lia).
    rewrite firstn_app_2. apply app_nil_r. }
  rewrite EF. rewrite foldM_app, header_read. cbn [bind]. rewrite foldM_app. destruct (count_read rd log0 fl L m) as [z Ez]. rewrite Ez. cbn [bind]. rewrite foldM_map.
  destruct (bottom_up (fun st i => read_line rd log0 fl st (LN i)) (fun L2 st => exists cache ro m1, st = (cache, ro, Some z, m1) /\ InvT val T fl m1 /\ mext fl m m1 /\ forall c, In c L2 -> image cache m1 c) L2 ([], None, Some z, m))
    as (st & E1 & cache & ro & m1 & -> & I1 & X1 & IM1).
  { intros L1' i' L2' st EL' (cache & ro & m1 & -> & I1 & X1 & IM1).
    destruct (read_line_spec val HP show rd log0 rnd show_plain show_ne T Tfun sroot hs root L SO HO HR q0 s t0 Hq0 Hs Rt TT FT RD fl pb (L1 ++ i :: L1') i' L2' cache ro z m1)
      as (j & m2 & E2 & I2 & X2 & IM2); auto. { rewrite EL, EL', <- app_assoc. reflexivity. } { rewrite (me_vt _ _ _ X1). auto. }
    eexists. split; [exact E2|]. eexists _, _, m2. split; [reflexivity|]. split; [auto|]. split; [eapply mext_trans; eauto|]. auto. }
  { exists [], None, m. split; [reflexivity|]. split; [auto|]. split; [apply mext_refl|]. intros c []. }
  eexists. split; [exact E1|]. exists cache, ro, z, m1. auto.
Qed.

(** reading the line of i with another last word *)
Lemma last_line L1 i L2 nd cache ro z (m : mgr) w t : L = L1 ++ i :: L2 -> nth_error hs i = Some nd -> Rep vr hs i t -> subtree (m_vt m) pb = Some s ->
  InvT val T fl m -> (forall c, In c L2 -> image cache m c) -> Forall plain w -> w <> [] ->
  match n_body nd with
  | BLit _ => forall x, w = show_Z x -> (-2147483648 <= x <= 2147483647)%Z ->
      read_line rd log0 fl (cache, ro, Some z, m) (line_with sroot FD (FD i) nd w) = bind (GetPsddLiteralNode m x fl) (fun '(j, m') => Ok ((Z.of_N (FD i), j) :: cache, Some j, Some z, m'))
  | BTop v pt pf => exists j m', GetPsddTopNode m v fl (read_param w) (rnd pf) = Ok (j, m') /\
      read_line rd log0 fl (cache, ro, Some z, m) (line_with sroot FD (FD i) nd w) = Ok ((Z.of_N (FD i), j) :: cache, Some j, Some z, m')
  | BDec es => exists j m' u tes t', read_line rd log0 fl (cache, ro, Some z, m) (line_with sroot FD (FD i) nd w) = Ok ((Z.of_N (FD i), j) :: cache, Some j, Some z, m') /\
      InvT val T fl m' /\ mext fl m m' /\ vt_of hs i = Some (u ++ q0) /\ t = TDec tes /\ node_at val m' j (u ++ pb) t' /\
      shuffled (TDec (last_weight (val (read_param w)) tes)) t' /\ flag_of (m_heap m') j = Some fl /\ In j (m_live m')
  end.
Proof.
  intros EL E Rti Sm I IM PW NW.
  assert (In i L) as HiL by (rewrite EL; apply in_elt).
  assert (reach hs root i) as RI by (apply (so_in _ _ _ SO); auto).
  destruct (reach_vt sroot hs HO _ _ RI _ Hq0) as (u & Hu).
  assert (subtree (m_vt m) (u ++ pb) = subtree sroot (u ++ q0)) as SU by (rewrite !subtree_app, Sm, Hs; reflexivity).
  assert ((Z.of_N (N.of_nat (vpos sroot (u ++ q0))) <= 2147483647)%Z) as VP.
  { pose proof (vpos_lt sroot (u ++ q0)). pose proof (fit_vtree _ _ FT). lia. }
  pose proof (fid_fits sroot hs root L SO HO HR FT i HiL) as FF.
  assert (forall v, subtree sroot (u ++ q0) = Some (Leaf v) -> (Z.of_N v <= 2147483647)%Z) as FV.
  { intros v Hv. apply (fit_vars _ _ FT). apply (HeapProofs.subtree_leaves _ _ _ _ Hv). left; auto. }
  assert (n_vt nd = u ++ q0) as VN by (unfold vt_of in Hu; rewrite E in Hu; injection Hu; auto).
  pose proof (HO _ _ E) as NO. unfold node_ok in NO. rewrite VN in NO. unfold line_with. rewrite VN.
  destruct (n_body nd) as [l|v pt pf|es] eqn:Eb; unfold read_line.
  - intros x -> RX. cbn [head_char Ascii.eqb Bool.eqb]. cbv iota. cbn [substr skipn List.length Nat.ltb Nat.leb bind].
    rewrite (ex_u64_N hs root HR) by (auto || reflexivity). rewrite (ex_u32_N hs root HR) by (lia || reflexivity).
    replace (sp (show_Z x)) with (sp (show_Z x) ++ []) by apply app_nil_r. rewrite (ex_i32_Z hs root HR) by (lia || exact Logic.I).
    cbn [get bind]. destruct (GetPsddLiteralNode m x fl) as [[j m']| | |]; reflexivity.
  - cbn [head_char Ascii.eqb Bool.eqb]. cbv iota. cbn [substr skipn List.length Nat.ltb Nat.leb bind].
    rewrite (ex_u64_N hs root HR) by (auto || reflexivity). rewrite (ex_u32_N hs root HR) by (lia || reflexivity).
    pose proof (FV _ NO) as B. rewrite (ex_u32_N hs root HR) by (lia || reflexivity).
    rewrite (ex_param show rd log0 rnd show_plain show_ne); [|apply (RD i nd pf RI E); unfold params; rewrite Eb; simpl; auto|reflexivity].
    rewrite ex_last by auto.
    rewrite <- SU in NO.
    assert (exists p, leaf_path (m_vt m) v = Some p) as (p & LP).
    { pose proof (leaf_path_spec (m_vt m) v) as Q. destruct (leaf_path (m_vt m) v); eauto. exfalso. exact (Q (HeapProofs.subtree_leaves _ _ _ v NO (or_introl eq_refl))). }
    cbn [get bind]; rewrite N2Z.id; unfold GetPsddTopNode; rewrite LP;
      destruct (GetUniqueNode m _) as [j m'] eqn:G; exists j, m'; (split; [reflexivity|reflexivity]).
  - destruct NO as (NE & (l & r & HV) & FE). 
    assert (exists tes, t = TDec tes /\ Forall2 (ElemRep vr hs) es tes) as (tes & -> & F).
    { clear - Rti E Eb. inversion Rti as [? nd0 l0 E0 Eb0|? nd0 v pt pf E0 Eb0|? nd0 es0 tes E0 Eb0 F]; subst; rewrite E in E0; injection E0 as <-; rewrite Eb in Eb0; try discriminate. injection Eb0 as <-. eauto. }
    cbn [head_char Ascii.eqb Bool.eqb]. cbv iota. cbn [substr skipn List.length Nat.ltb Nat.leb bind assert].
    rewrite (ex_u64_N hs root HR) by (auto || reflexivity). rewrite (ex_i32_N hs root HR) by (lia || reflexivity).
    pose proof (fit_elems _ _ FT _ _ _ E Eb) as FE2.
    erewrite (ex_u64_N hs root HR); [|lia|destruct es as [|e0 [|e1 es0]]; [congruence|reflexivity|reflexivity]]. cbn [get bind].
    replace (Z.to_nat (Z.of_N (N.of_nat (List.length es)))) with (List.length es) by lia.
    assert (forall e, In e es -> In (e_prime e) (children nd) /\ In (e_sub e) (children nd)) as CH.
    { intros e He. unfold children. rewrite Eb. rewrite !in_app_iff. split; [left|right]; apply in_map; auto. }
    assert (forall c, In c (children nd) -> In c L2) as CL.
    { intros c Hc. apply (so_topo _ _ _ SO L1 i L2 EL nd c E Hc). }
    assert (forall c, In c L2 -> In c L) as L2L by (intros c Hc; rewrite EL; apply in_app_iff; right; right; auto).
    destruct (read_elems_last w cache m es tes u) as (es1 & tes1 & E1 & F1 & F2 & F3); auto.
    { intros e He. apply (RD i nd); auto. unfold params. rewrite Eb. apply in_map; auto. }
    { intros e He. destruct (CH e He). auto. }
    { intros e He. destruct (CH e He). auto. }
    { intros e He. rewrite Forall_forall in FE. destruct (FE e He) as (_ & _ & V1 & V2). auto. }
    match goal with |- context [read_elems rd log0 (List.length es) cache ?y] => replace (read_elems rd log0 (List.length es) cache y) with (Ok (map e_prime es1, map e_sub es1, map e_param es1)) by (symmetry; exact E1) end. cbn [bind].
    assert (es1 <> []) as NE1.
    { intros ->. inversion F2; subst. inversion F3 as [Q|]; subst. inversion F as [|? ? ? ? ? F']; subst; [congruence|]. destruct F'; discriminate. }
    assert (exists e1 es2, es1 = e1 :: es2) as (e1 & es2 & EE) by (destruct es1; [congruence|eauto]).
    assert (vt_of (m_heap m) (e_prime e1) = Some (false :: u ++ pb) /\ vt_of (m_heap m) (e_sub e1) = Some (true :: u ++ pb)) as [W1 W2].
    { rewrite EE in F1. inversion F1; auto. }
    assert (hd_error (map e_prime es1) = Some (e_prime e1) /\ hd_error (map e_sub es1) = Some (e_sub e1)) as [H1 H2] by (rewrite EE; auto).
    rewrite H1. cbn [get bind]. rewrite H2. cbn [get bind]. rewrite W1. cbn [get bind]. rewrite W2. cbn [get bind vparent oeqb assert].
    rewrite path_eqb_refl. cbn [assert bind get].
    rewrite <- SU in HV.
    destruct (new_decT_spec val HP T Tfun fl m (u ++ pb) es1 tes1 I (ex_intro _ l (ex_intro _ r HV)) NE1 F1 F2) as (j & m' & tes2 & E2 & I' & X & LV & PM & A & FL).
    rewrite E2. cbn [bind]. exists j, m', u, tes, (TDec tes2). split; [reflexivity|]. do 2 (split; [auto|]). split; [auto|]. split; [auto|]. split; [auto|].
    split; [eapply sh_dec_perm; eauto|auto].
Qed.
End Read.
End Accepted.

(** ** Files cut at a byte *)
Lemma lines_unfinished ls l : Forall no_nl ls -> no_nl l -> l <> [] -> lines (unlines ls ++ l) = ls ++ [l].
Proof.
  intros F N NE. induction F as [|a ls H F IH]; cbn [app].
  - unfold unlines. cbn [map concat app]. unfold lines.
    assert (forall l acc, no_nl l -> lines_from acc l = match rev acc ++ l with [] => [] | x => [x] end) as Q.
    { clear. induction l as [|c l IH]; intros acc N; cbn [lines_from].
      - rewrite app_nil_r. destruct acc as [|b acc]; [reflexivity|]. destruct (rev (b :: acc)) eqn:E; [|reflexivity]. apply (f_equal (@List.length ascii)) in E. rewrite rev_length in E. discriminate.
      - destruct (Ascii.eqb_spec c nl) as [->|_]; [exfalso; apply N; left; auto|]. rewrite IH by (intros G; apply N; right; auto). cbn [rev]. rewrite <- app_assoc. reflexivity. }
    rewrite Q by auto. cbn [rev app]. destruct l; [congruence|reflexivity].
  - change (unlines (a :: ls)) with ((a ++ [nl]) ++ unlines ls). rewrite <- !app_assoc. unfold lines. cbn [app]. rewrite lines_from_line by auto. cbn [rev app]. f_equal. exact IH.
Qed.
Lemma cut_forms ls : forall n, n < List.length (unlines ls) ->
  exists k l x, nth_error ls k = Some l /\ x <= List.length l /\ firstn n (unlines ls) = unlines (firstn k ls) ++ firstn x l.
Proof.
  induction ls as [|a ls IH]; intros n H; [inversion H|]. change (unlines (a :: ls)) with ((a ++ [nl]) ++ unlines ls) in *.
  rewrite !app_length in H. cbn [List.length] in H. destruct (Nat.le_gt_cases n (List.length a)) as [L|L].
  - exists 0, a, n. split; [reflexivity|]. split; auto. rewrite <- app_assoc, firstn_app. replace (n - List.length a) with 0 by lia. cbn [firstn]. apply app_nil_r.
  - destruct (IH (n - S (List.length a))) as (k & l & x & E & X & F); [lia|]. exists (S k), l, x. split; [exact E|]. split; auto.
    rewrite firstn_app, firstn_all2 by (rewrite app_length; cbn [List.length]; lia). rewrite app_length. cbn [List.length].
    replace (n - (List.length a + 1)) with (n - S (List.length a)) by lia. rewrite F. cbn [firstn]. change (unlines (a :: firstn k ls)) with ((a ++ [nl]) ++ unlines (firstn k ls)). apply app_assoc.
Qed.
Lemma firstn_nth_S' {A} (l : list A) : forall k x, nth_error l k = Some x -> firstn (S k) l = firstn k l ++ [x].
Proof. induction l as [|y l IH]; intros [|k] x E; try discriminate; simpl in *; [injection E as ->; reflexivity|rewrite <- (IH k x E); reflexivity]. Qed.
Lemma no_nl_firstn x l : no_nl l -> no_nl (firstn x l).
Proof. intros N H. apply N. eapply firstn_In; eauto. Qed.
Lemma firstn_nil_iff {A} x (l : list A) : 1 <= x -> l <> [] -> firstn x l <> [].
Proof. destruct x; [lia|]. destruct l; [congruence|discriminate]. Qed.

Section Files.
Context {P : pops}.
Notation heap := (heap P). Notation mgr := (mgr P). Notation node := (node P).
Context (show : P -> text) (rd : text -> option P) (log0 : P).
Context (show_plain : forall a, Forall plain (show a)) (show_ne : forall a, show a <> []).

Lemma header_cut (fl : N) (m : mgr) k l x : nth_error header k = Some l -> read_line rd log0 fl ([], None, None, m) (firstn (S x) l) = Ok ([], None, None, m).
Proof. intros E. do 8 (destruct k as [|k]; [injection E as <-; reflexivity|]). destruct k; discriminate E. Qed.
Lemma node_nonempty sroot (hs : heap) i nd : heap_ok sroot hs -> nth_error hs i = Some nd -> match n_body nd with BDec es => es <> [] | _ => True end.
Proof. intros HO E. pose proof (HO _ _ E) as NO. unfold node_ok in NO. destruct (n_body nd); auto. apply NO. Qed.
Lemma file_line sroot hs L k i nd : nth_error (rev L) k = Some i -> nth_error hs i = Some nd ->
  nth_error (file_lines show sroot hs L) (9 + k) = Some (show_node show sroot (fid L) (fid L i) nd).
Proof.
  intros Hk E. unfold file_lines. change (9 + k) with (List.length header + (1 + k)).
  rewrite nth_error_app2 by lia. replace (List.length header + (1 + k) - List.length header) with (1 + k) by lia. cbn [app plus nth_error].
  rewrite (map_nth_error (line show sroot hs L) k (rev L) Hk). unfold line. rewrite E. reflexivity.
Qed.

Theorem cut_inside sroot (hs : heap) ud root : heap_ok sroot hs -> root < List.length hs ->
  exists content ud' L, WritePsddToFile show sroot hs ud root = Ok (content, ud') /\ SerializePsddNodes hs [root] = Ok L /\
    (* every prefix of the file ends in some line *)
    (forall n, n < List.length content -> exists k l x, nth_error (lines content) k = Some l /\ x <= List.length l /\
       firstn n content = unlines (firstn k (lines content)) ++ firstn x l) /\
    (* only the newline missing: as if it was there *)
    (forall k l fl m, nth_error (lines content) k = Some l ->
       ReadPsddFile rd log0 (unlines (firstn k (lines content)) ++ l) fl m = ReadPsddFile rd log0 (unlines (firstn (S k) (lines content))) fl m) /\
    (* the lines before the nodes *)
    (forall k l x fl m, k < 9 -> nth_error (lines content) k = Some l -> 1 <= x <= List.length l ->
       ReadPsddFile rd log0 (unlines (firstn k (lines content)) ++ firstn x l) fl m = if Nat.eqb k 8 && Nat.ltb x 5 then Abort else Ok (None, m)) /\
    (* the line of a node, cut before its last word *)
    forall k i nd, nth_error (rev L) k = Some i -> nth_error hs i = Some nd ->
      exists A, nth_error (lines content) (9 + k) = Some (A ++ sp (last_word show log0 nd)) /\
      forall x, 1 <= x <= List.length A + 1 -> forall fl m y, ReadPsddFile rd log0 (unlines (firstn (9 + k) (lines content)) ++ firstn x (A ++ sp (last_word show log0 nd))) fl m <> Ok y.
Proof.
  intros HO HR. destruct (serialize_root hs sroot root HO HR) as [L SO].
  destruct (write_spec show sroot hs root L SO HO HR ud) as (ud' & E1 & _ & _).
  change (header ++ [str "psdd" ++ sp (show_N (N.of_nat (List.length L)))] ++ map (line show sroot hs L) (rev L)) with (file_lines show sroot hs L) in E1.
  pose proof (file_nonl show show_plain sroot hs L) as NL.
  assert (forall k, Forall no_nl (firstn k (file_lines show sroot hs L))) as NLF.
  { intros k. apply Forall_forall. intros x H. apply firstn_In in H. rewrite Forall_forall in NL. auto. }
  assert (forall k l, nth_error (file_lines show sroot hs L) k = Some l -> no_nl l /\ l <> []) as NEL.
  { intros k l E. split; [rewrite Forall_forall in NL; apply NL; eapply nth_error_In; eauto|].
    apply nth_error_In in E. unfold file_lines in E. apply in_app_iff in E as [E|E]; [|apply in_app_iff in E as [[<-|[]]|E]].
    - unfold header in E. repeat (destruct E as [<-|E]; [discriminate|]). destruct E.
    - discriminate.
    - apply in_map_iff in E as (i & <- & Hi). rewrite <- in_rev in Hi. apply (so_in _ _ _ SO) in Hi. unfold line. destruct (nth_error hs i) as [nd|] eqn:Q.
      + unfold show_node. destruct (n_body nd); discriminate.
      + exfalso. apply nth_error_None in Q. pose proof (reach_le _ _ _ _ HO Hi). lia. }
  exists (unlines (file_lines show sroot hs L)), ud', L. split; [exact E1|]. split; [apply (so_eq _ _ _ SO)|]. rewrite lines_unlines by auto.
  split; [apply cut_forms|]. split.
  { intros k l fl m E. destruct (NEL k l E) as [N1 N2]. unfold ReadPsddFile. rewrite lines_unfinished by auto. rewrite lines_unlines by auto.
    rewrite (firstn_nth_S' _ _ _ E). reflexivity. }
  split.
  { intros k l x fl m K E X. destruct (NEL k l E) as [N1 N2]. unfold ReadPsddFile. rewrite lines_unfinished by (solve [auto | apply no_nl_firstn; auto | apply firstn_nil_iff; auto; lia]).
    rewrite foldM_app.
    assert (k <= 8) as K8 by lia. replace (firstn k (file_lines show sroot hs L)) with (firstn k header).
    2:{ unfold file_lines. rewrite firstn_app. replace (k - List.length header) with 0 by (change (List.length header) with 8; lia). cbn [firstn]. rewrite app_nil_r. reflexivity. }
    assert (foldM (read_line rd log0 fl) (firstn k header) ([], None, None, m) = Ok ([], None, None, m)) as ->.
    { clear - K8. do 9 (destruct k as [|k]; [reflexivity|]). lia. }
    cbn [bind foldM]. destruct x as [|x]; [lia|]. destruct (Nat.eqb_spec k 8) as [->|NK].
    - cbn [andb]. unfold file_lines in E. rewrite nth_error_app2 in E by (change (List.length header) with 8; lia). injection E as <-.
      unfold count_line. cbn [str list_ascii_of_string app].
      do 4 (destruct x as [|x]; [reflexivity|]). change (Nat.ltb (S (S (S (S (S x))))) 5) with false. cbv iota. unfold sp. cbn [firstn]. unfold read_line. cbn [head_char Ascii.eqb Bool.eqb]. cbv iota. unfold substr. cbn [List.length Nat.ltb Nat.leb skipn bind].
      reflexivity.
    - cbn [andb]. unfold file_lines in E. rewrite nth_error_app1 in E by (change (List.length header) with 8; lia). rewrite (header_cut fl m k l x E). reflexivity. }
  intros k i nd Hk E. pose proof (node_nonempty sroot hs i nd HO E) as NE. pose proof (file_line sroot hs L k i nd Hk E) as FL.
  destruct (line_split show log0 sroot (fid L) (fid L i) nd NE) as (SP & _). exists (before_last show log0 sroot (fid L) (fid L i) nd). rewrite <- SP. split; [exact FL|].
  intros x X fl m y. destruct (NEL _ _ FL) as [N1 N2]. unfold ReadPsddFile. rewrite lines_unfinished by (solve [auto | apply no_nl_firstn; auto | apply firstn_nil_iff; auto; lia]).
  rewrite foldM_app. destruct (foldM _ (firstn (9 + k) _) _) as [st| | |]; try discriminate. cbn [bind foldM].
  assert (x + List.length (last_word show log0 nd) <= List.length (show_node show sroot (fid L) (fid L i) nd)) as XL by (rewrite SP, app_length; unfold sp; cbn [List.length]; lia).
  pose proof (line_cut_rejected show rd log0 show_plain show_ne fl st sroot (fid L) (fid L i) nd x NE ltac:(lia) XL) as R.
  destruct (read_line rd log0 fl st _) as [st'| | |]; try discriminate. exfalso. apply (R st' eq_refl).
Qed.
End Files.

Section Last.
Context {P : pops} (val : P -> R) (HP : pexact P val).
Notation heap := (heap P). Notation mgr := (mgr P). Notation node := (node P).
Context (show : P -> text) (rd : text -> option P) (log0 : P) (rnd : P -> P).
Context (show_plain : forall a, Forall plain (show a)) (show_ne : forall a, show a <> []).
Context (T : N -> R -> R -> Prop) (Tfun : forall v a b b', T v a b -> T v a b' -> b = b').
Notation vr := (vr val rnd). Notation tops_T := (tops_T T). Notation read_param := (read_param rd log0).

Theorem cut_last sroot (hs : heap) ud root q0 s t0 (m : mgr) fl pb :
  heap_ok sroot hs -> vt_of hs root = Some q0 -> subtree sroot q0 = Some s -> fits sroot hs ->
  (forall i nd a, reach hs root i -> nth_error hs i = Some nd -> In a (params nd) -> rd (show a) = Some (rnd a)) ->
  Rep vr hs root t0 -> tops_T t0 -> subtree (m_vt m) pb = Some s -> InvT val T fl m ->
  exists content ud' L, WritePsddToFile show sroot hs ud root = Ok (content, ud') /\ SerializePsddNodes hs [root] = Ok L /\
    forall k i nd t, nth_error (rev L) k = Some i -> nth_error hs i = Some nd -> Rep vr hs i t ->
      exists A c m1, nth_error (lines content) (9 + k) = Some (A ++ sp (last_word show log0 nd)) /\
      ReadPsddFile rd log0 (unlines (firstn (9 + k) (lines content))) fl m = Ok (c, m1) /\ InvT val T fl m1 /\ mext fl m m1 /\
      forall w, Forall plain w -> w <> [] ->
        let r := ReadPsddFile rd log0 (unlines (firstn (9 + k) (lines content)) ++ A ++ sp w) fl m in
        match n_body nd with
        | BLit _ => forall x, w = show_Z x -> (-2147483648 <= x <= 2147483647)%Z -> r = bind (GetPsddLiteralNode m1 x fl) (fun '(j, m') => Ok (Some j, m'))
        | BTop v pt pf => exists j m', GetPsddTopNode m1 v fl (read_param w) (rnd pf) = Ok (j, m') /\ r = Ok (Some j, m')
        | BDec es => exists j m' u tes t', r = Ok (Some j, m') /\ InvT val T fl m' /\ mext fl m m' /\ vt_of hs i = Some (u ++ q0) /\ t = TDec tes /\
            node_at val m' j (u ++ pb) t' /\ shuffled (TDec (last_weight (val (read_param w)) tes)) t' /\ flag_of (m_heap m') j = Some fl /\ In j (m_live m')
        end.
Proof.
  intros HO Hq0 Hs FT RD Rt TT Sm I. assert (root < List.length hs) as HR by (eapply vt_of_lt; eauto).
  destruct (serialize_root hs sroot root HO HR) as [L SO].
  destruct (write_spec show sroot hs root L SO HO HR ud) as (ud' & E1 & _ & _).
  change (header ++ [str "psdd" ++ sp (show_N (N.of_nat (List.length L)))] ++ map (line show sroot hs L) (rev L)) with (file_lines show sroot hs L) in E1.
  pose proof (file_nonl show show_plain sroot hs L) as NL.
  assert (forall k, Forall no_nl (firstn k (file_lines show sroot hs L))) as NLF.
  { intros k. apply Forall_forall. intros x H. apply firstn_In in H. rewrite Forall_forall in NL. auto. }
  exists (unlines (file_lines show sroot hs L)), ud', L. split; [exact E1|]. split; [apply (so_eq _ _ _ SO)|]. rewrite lines_unlines by auto.
  intros k i nd t Hk E Rti. pose proof (node_nonempty sroot hs i nd HO E) as NE. pose proof (file_line show sroot hs L k i nd Hk E) as FL.
  destruct (line_split show log0 sroot (fid L) (fid L i) nd NE) as (SP & SW). exists (before_last show log0 sroot (fid L) (fid L i) nd).
  assert (k < List.length L) as KL by (rewrite <- rev_length; apply nth_error_Some; congruence).
  destruct (nth_error_split _ _ Hk) as (l1 & l2 & EL & LL). apply (f_equal (@rev nat)) in EL. rewrite rev_involutive, rev_app_distr in EL. cbn [rev] in EL.
  rewrite <- app_assoc in EL. cbn [app] in EL.
  destruct (lines_before val HP show rd log0 rnd show_plain show_ne T Tfun sroot hs root L SO HO HR q0 s t0 Hq0 Hs Rt TT FT RD fl pb (rev l2) i (rev l1) m EL Sm I) as (st & EF & cache & ro & z & m1 & -> & I1 & X1 & IM).
  rewrite rev_length, LL in EF. exists ro, m1. rewrite <- SP. split; [exact FL|]. split; [unfold ReadPsddFile; rewrite lines_unlines, EF by auto; reflexivity|].
  split; [auto|]. split; [auto|]. intros w PW NW r.
  pose proof (last_line val HP show rd log0 rnd show_plain show_ne T Tfun sroot hs root L SO HO HR q0 s Hq0 Hs FT RD fl pb (rev l2) i (rev l1) nd cache ro z m1 w t EL E Rti) as Q.
  specialize (Q ltac:(rewrite (me_vt _ _ _ X1); auto) I1 IM PW NW). rewrite SW in Q.
  assert (r = bind (read_line rd log0 fl (cache, ro, Some z, m1) (before_last show log0 sroot (fid L) (fid L i) nd ++ sp w)) (fun st => Ok (snd (fst (fst st)), snd st))) as ER.
  { subst r. unfold ReadPsddFile. rewrite lines_unfinished; auto.
    - rewrite foldM_app, EF. cbn [bind foldM]. destruct (read_line rd log0 fl _ _) as [[[[c' r'] p'] m']| | |]; reflexivity.
    - rewrite Forall_forall in NL. pose proof (NL _ (nth_error_In _ _ FL)) as N. rewrite SP in N. intros H. apply in_app_iff in H as [H|H]; [apply N, in_app_iff; auto|].
      destruct H as [H|H]; [discriminate|]. exact (plain_no_nl w PW H).
    - destruct (before_last show log0 sroot (fid L) (fid L i) nd); discriminate. }
  rewrite ER. destruct (n_body nd) as [l|v pt pf|es].
  - intros x EX RX. rewrite (Q x EX RX). destruct (GetPsddLiteralNode m1 x fl) as [[j m']| | |]; reflexivity.
  - destruct Q as (j & m' & G & Q). exists j, m'. split; auto. rewrite Q. reflexivity.
  - destruct Q as (j & m' & u & tes & t' & Q & I2 & X2 & Q1 & Q2 & Q3 & Q4 & Q5 & Q6). exists j, m', u, tes, t'. rewrite Q. split; [reflexivity|]. split; [auto|]. split; [eapply mext_trans; eauto|]. auto 10.
Qed.
End Last.
