(** Reading PSDD files that need not have been written by this program: what a file describes, that it is read as described, which files are
    rejected and which damages go unnoticed (C68). *)
From Coq Require Import Ascii String Reals Lra Permutation.
From Verif Require Import Base Param ParamProofs Vtree VtreeProofs Spec SpecProofs Heap Manager HeapProofs SerProofs RepProofs LoadProofs ReplayProofs
  Text IO IOProofs Data Uai NumProofs.

(** ** The format *)
(** [int_field lo hi s z rest]: s is blanks, a decimal number z between lo and hi, and rest *)
Definition int_field (lo hi : Z) (s : text) (z : Z) (rest : text) : Prop :=
  exists ws sg ds, s = ws ++ sign_text sg ++ numeral ds ++ rest /\ blanks ws /\ is_digits ds /\ ds <> [] /\ nodig rest /\
    z = signed sg (value ds) /\ (lo <= z <= hi)%Z.
Definition u32 := int_field 0 4294967295.
Definition u64 := int_field 0 18446744073709551615.
Definition i32 := int_field (-2147483648) 2147483647.
Lemma int_field_unsigned hi s z rest : (0 <= hi)%Z -> int_field 0 hi s z rest -> ex_int 0 hi (s, true) = (Some z, (rest, true)).
Proof.
  intros H0 (ws & sg & ds & -> & B & D & NE & ND & -> & L).
  destruct (ex_int_spec 0 hi ws sg ds rest B D) as (_ & _ & _ & A & _); [split; [auto|intros _ ->; congruence]|lia|].
  assert (Z.of_N (value ds) <= hi)%Z as V by (destruct sg; simpl in L; lia).
  destruct (A NE eq_refl V) as (k & K1 & K2 & E). assert (k = 0)%Z as -> by nia. etransitivity; [exact E|]. do 2 f_equal. lia.
Qed.
Lemma int_field_signed lo hi s z rest : (lo < 0 <= hi)%Z -> int_field lo hi s z rest -> ex_int lo hi (s, true) = (Some z, (rest, true)).
Proof.
  intros H0 (ws & sg & ds & -> & B & D & NE & ND & -> & L).
  destruct (ex_int_spec lo hi ws sg ds rest B D) as (_ & _ & _ & _ & _ & A & _); [split; [auto|intros _ ->; congruence]|lia|].
  apply A; auto; lia.
Qed.
Lemma u32_read s z rest : u32 s z rest -> ex_u32 (s, true) = (Some z, (rest, true)).
Proof. apply int_field_unsigned. lia. Qed.
Lemma u64_read s z rest : u64 s z rest -> ex_u64 (s, true) = (Some z, (rest, true)).
Proof. apply int_field_unsigned. lia. Qed.
Lemma i32_read s z rest : i32 s z rest -> ex_i32 (s, true) = (Some z, (rest, true)).
Proof. apply int_field_signed. lia. Qed.
(** blanks, a word that reads as the parameter a, and rest *)
Definition word_field {A} (rd : text -> option A) (s : text) (a : A) (rest : text) : Prop :=
  exists ws w, s = ws ++ w ++ rest /\ blanks ws /\ Forall plain w /\ w <> [] /\ starts_blank rest /\ rd w = Some a.
Lemma word_read {A} (rd : text -> option A) zero s a rest : word_field rd s a rest -> ex_word rd zero (s, true) = (Some a, (rest, true)).
Proof.
  intros (ws & w & -> & B & F & NE & H & E). unfold ex_word. cbn [negb]. rewrite skip_blanks by auto.
  destruct w as [|c w]; [congruence|]. inversion F as [|? ? C F']; subst. cbn [app skip_ws]. unfold plain in C. rewrite C.
  change (c :: w ++ rest) with ((c :: w) ++ rest). rewrite take_word_app by auto. rewrite E. reflexivity.
Qed.

Section File.
Context {P : pops}.
Notation mgr := (mgr P).
Context (rd : text -> option P) (log0 : P).

(** What a line says.  Ids of vtree nodes are not part of it. *)
Inductive item :=
| Comment
| Count (n : Z)
| ILit (k : Z) (l : Z)
| ITop (k : Z) (v : N) (neg pos : P)
| IDec (k : Z) (els : list (Z * Z * P)).
Inductive elems_text : text -> list (Z * Z * P) -> Prop :=
| et_nil rest : elems_text rest []
| et_cons s a s1 b s2 w s3 els : u64 s a s1 -> u64 s1 b s2 -> word_field rd s2 w s3 -> elems_text s3 els -> elems_text s ((a, b, w) :: els).
Inductive spells : text -> item -> Prop :=
| sp_comment s : spells ("c"%char :: s) Comment
| sp_count c1 c2 c3 c4 s n rest : u32 s n rest -> spells ("p"%char :: c1 :: c2 :: c3 :: c4 :: s) (Count n)
| sp_lit s k s1 vt s2 l rest : u64 s k s1 -> u32 s1 vt s2 -> i32 s2 l rest -> spells ("L"%char :: s) (ILit k l)
| sp_top s k s1 vt s2 v s3 neg s4 pos rest : u64 s k s1 -> u32 s1 vt s2 -> u32 s2 (Z.of_N v) s3 -> word_field rd s3 neg s4 -> word_field rd s4 pos rest ->
    spells ("T"%char :: s) (ITop k v neg pos)
| sp_dec s k s1 vt s2 els s3 : u64 s k s1 -> i32 s1 vt s2 -> u64 s2 (Z.of_nat (List.length els)) s3 -> elems_text s3 els -> spells ("D"%char :: s) (IDec k els).

Lemma elems_read cache els : forall s, elems_text s els -> forall js,
  Forall2 (fun (x : Z * Z * P) (e : elem P) => Zlookup (fst (fst x)) cache = Some (e_prime e) /\ Zlookup (snd (fst x)) cache = Some (e_sub e) /\ snd x = e_param e) els js ->
  read_elems rd log0 (List.length els) cache (s, true) = Ok (map e_prime js, map e_sub js, map e_param js).
Proof.
  induction els as [|[[a b] w] els IH]; intros s E js F.
  - inversion F; subst. reflexivity.
  - inversion E as [|? ? s1 ? s2 ? s3 ? U1 U2 W E']; subst. inversion F as [|? e ? js' (A & B & C) F']; subst. simpl in A, B, C.
    cbn [List.length read_elems]. rewrite (u64_read _ _ _ U1), (u64_read _ _ _ U2), (word_read rd log0 _ _ _ W).
    cbn [get bind]. rewrite A. cbn [bind]. rewrite B. cbn [bind]. rewrite (IH _ E' _ F'). cbn [bind map]. rewrite C. reflexivity.
Qed.

(** ** Anything read leaves what was there *)
Lemma new_dec_grow (m : mgr) vt fl ps ss ws i m1 : new_dec m vt fl ps ss ws = Ok (i, m1) -> grow m m1.
Proof.
  unfold new_dec. intros H. destruct (mk_elems ws 0 ps ss); try discriminate. cbn [bind] in H. injection H as H.
  unfold GetUniqueNode in H. destruct (find _ (m_live m)); injection H as <- <-; [apply grow_refl|].
  split; [reflexivity|]. split; [eexists; reflexivity|]. apply incl_appl, incl_refl.
Qed.
Lemma intern_grow (m : mgr) nd i m1 : GetUniqueNode m nd = (i, m1) -> grow m m1.
Proof.
  unfold GetUniqueNode. intros E. destruct (find _ (m_live m)); injection E as <- <-; [apply grow_refl|].
  split; [reflexivity|]. split; [eexists; reflexivity|]. apply incl_appl, incl_refl.
Qed.
Lemma literal_grow (m : mgr) l fl i m1 : GetPsddLiteralNode m l fl = Ok (i, m1) -> grow m m1.
Proof. unfold GetPsddLiteralNode. destruct (leaf_path _ _); [|discriminate]. intros H. injection H as H. eapply intern_grow; eauto. Qed.
Lemma top_grow (m : mgr) v fl a b i m1 : GetPsddTopNode m v fl a b = Ok (i, m1) -> grow m m1.
Proof. unfold GetPsddTopNode. destruct (leaf_path _ _); [|discriminate]. intros H. injection H as H. eapply intern_grow; eauto. Qed.
Ltac step H := match type of H with
  | bind ?x _ = Ok _ => let E := fresh "E" in destruct x eqn:E; try discriminate H; cbn [bind] in H
  | (let '(_, _) := ?x in _) = Ok _ => let E := fresh "E" in destruct x eqn:E
  end.
Lemma read_line_grow fl cache ro psz (m : mgr) l c' r' p' m' : read_line rd log0 fl (cache, ro, psz, m) l = Ok (c', r', p', m') -> grow m m'.
Proof.
  unfold read_line. intros H. destruct (Ascii.eqb (head_char l) "c"); [injection H as <- <- <- <-; apply grow_refl|].
  destruct (Ascii.eqb (head_char l) "p"). { step H. injection H as <- <- <- <-. apply grow_refl. }
  match type of H with bind ?x _ = _ => destruct x as [[[k i] m1]| | |] eqn:E; try discriminate H; cbn [bind] in H end.
  step H. injection H as <- <- <- <-.
  destruct (Ascii.eqb (head_char l) "L"); [|destruct (Ascii.eqb (head_char l) "T")]; repeat step E; injection E as <- <- <-;
    subst; eauto using literal_grow, top_grow, new_dec_grow.
Qed.
Lemma read_lines_grow fl ls : forall (st st' : rstate (P := P)), foldM (read_line rd log0 fl) ls st = Ok st' -> grow (snd st) (snd st').
Proof.
  induction ls as [|l ls IH]; intros st st' H; cbn [foldM] in H; [injection H as <-; apply grow_refl|].
  destruct st as [[[c r] p] m]. destruct (read_line rd log0 fl (c, r, p, m) l) as [[[[c1 r1] p1] m1]| | |] eqn:E; try discriminate. cbn [bind] in H.
  eapply grow_trans; [eapply read_line_grow; eauto|]. apply (IH (c1, r1, p1, m1) st' H).
Qed.
Theorem read_grow content fl (m : mgr) x m' : ReadPsddFile rd log0 content fl m = Ok (x, m') -> grow m m'.
Proof.
  unfold ReadPsddFile. destruct (foldM _ _ _) as [[[[c r] p] m1]| | |] eqn:E; try discriminate. cbn [bind]. intros H. injection H as <- <-.
  apply (read_lines_grow _ _ _ _ E).
Qed.

(** ** Rejected files *)
Lemma read_app content content1 ls2 fl (m : mgr) (R : res (option nat * mgr)) : lines content = lines content1 ++ ls2 ->
  (forall st, foldM (read_line rd log0 fl) (lines content1) ([], None, None, m) = Ok st -> bind (foldM (read_line rd log0 fl) ls2 st) (fun '(x, m1) => Ok (snd (fst x), m1)) = R) ->
  ReadPsddFile rd log0 content fl m = bind (ReadPsddFile rd log0 content1 fl m) (fun _ => R).
Proof.
  intros E H. unfold ReadPsddFile. rewrite E, foldM_app. destruct (foldM _ (lines content1) _) as [st| | |]; cbn [bind]; auto.
  rewrite <- (H st eq_refl). destruct st as [[[c r] p] m1]. reflexivity.
Qed.
Lemma truncated content content1 ls2 fl (m : mgr) x : lines content = lines content1 ++ ls2 -> ReadPsddFile rd log0 content fl m = Ok x ->
  exists y, ReadPsddFile rd log0 content1 fl m = Ok y.
Proof.
  intros E H. unfold ReadPsddFile in *. rewrite E, foldM_app in H. destruct (foldM _ (lines content1) _) as [[[[c r] p] m1]| | |]; try discriminate.
  cbn [bind]. eauto.
Qed.
Definition node_line (l : text) : Prop := In (head_char l) ["L"; "T"; "D"]%char.
Definition line_id (l : text) (k : Z) : Prop := node_line l /\ fst (ex_u64 (tl l, true)) = Some k.
(** the ids in the cache come from the lines read, and the vtree never changes *)
Definition from_lines (m0 : mgr) (ls : list text) (st : rstate (P := P)) : Prop :=
  let '(c, r, p, m) := st in (forall k i, Zlookup k c = Some i -> exists l, In l ls /\ line_id l k) /\ m_vt m = m_vt m0 /\
    (p <> None -> exists l, In l ls /\ head_char l = "p"%char).
Lemma lookup_cons k k' (i : nat) c j : Zlookup k ((k', i) :: c) = Some j -> k = k' \/ Zlookup k c = Some j.
Proof. unfold Zlookup. cbn [alookup]. destruct (Z.eqb_spec k k'); auto. Qed.
Lemma line_from fl m0 ls st l st' : from_lines m0 ls st -> read_line rd log0 fl st l = Ok st' -> from_lines m0 (ls ++ [l]) st'.
Proof.
  destruct st as [[[c r] p] m], st' as [[[c' r'] p'] m']. intros (A & B & C) H. pose proof (read_line_grow _ _ _ _ _ _ _ _ _ _ H) as (V & _).
  assert (forall k i, Zlookup k c = Some i -> exists l', In l' (ls ++ [l]) /\ line_id l' k) as A'.
  { intros k i L. destruct (A k i L) as (l' & I & D). exists l'. rewrite in_app_iff. auto. }
  assert (p <> None -> exists l', In l' (ls ++ [l]) /\ head_char l' = "p"%char) as C'.
  { intros N. destruct (C N) as (l' & I & D). exists l'. rewrite in_app_iff. auto. }
  unfold read_line in H. destruct (Ascii.eqb (head_char l) "c"). { injection H as <- <- <- <-. split; auto. }
  destruct (Ascii.eqb_spec (head_char l) "p") as [HP'|_].
  { step H. injection H as <- <- <- <-. split; auto. split; auto. intros _. exists l. rewrite in_app_iff. simpl. auto. }
  match type of H with bind ?x _ = _ => destruct x as [[[k i] m1]| | |] eqn:E; try discriminate H; cbn [bind] in H end.
  step H. injection H as <- <- <- <-. split; [|split; [congruence|auto]].
  intros k' i' L. apply lookup_cons in L as [->|L]; [|eauto]. exists l. rewrite in_app_iff. split; [simpl; auto|]. unfold line_id, node_line.
  destruct l as [|ch l]; [discriminate E|]. cbn [head_char tl] in *.
  assert (substr 1 (ch :: l) = Ok l) as SS by reflexivity.
  destruct (Ascii.eqb_spec ch "L") as [->|_]; [|destruct (Ascii.eqb_spec ch "T") as [->|_]; [|destruct (Ascii.eqb_spec ch "D") as [->|_]; [|discriminate E]]];
    (split; [simpl; auto|]); rewrite SS in E; cbn [assert bind] in E; repeat step E; injection E as <- <- <-;
    match goal with E1 : ex_u64 _ = (?o, _), G : get ?o = Ok ?a |- _ = Some ?a => destruct o; [|discriminate G]; injection G as <-; exact (f_equal fst E1) end.
Qed.
Lemma lines_from_spec fl m0 ls : forall pre st st', from_lines m0 pre st -> foldM (read_line rd log0 fl) ls st = Ok st' -> from_lines m0 (pre ++ ls) st'.
Proof.
  induction ls as [|l ls IH]; intros pre st st' F H; cbn [foldM] in H; [injection H as <-; rewrite app_nil_r; auto|].
  destruct (read_line rd log0 fl st l) as [st1| | |] eqn:E; try discriminate. cbn [bind] in H.
  pose proof (IH (pre ++ [l]) st1 st' (line_from _ _ _ _ _ _ F E) H) as K. rewrite <- app_assoc in K. exact K.
Qed.
Lemma start_from (m : mgr) : from_lines m [] ([], None, None, m).
Proof. split; [intros k i H; discriminate|]. split; auto. congruence. Qed.

(** Lines that stop the program, after the lines ls on a manager with the vtree vt *)
Definition bad_line (vt : vtree) (ls : list text) (l : text) : Prop :=
  ~ In (head_char l) ["c"; "p"; "L"; "T"; "D"]%char
  \/ (head_char l = "p"%char /\ List.length l < 5)
  \/ (exists k x, spells l (ILit k x) /\ ~ In (Z.abs_N x) (leaves vt))
  \/ (exists k v a b, spells l (ITop k v a b) /\ ~ In v (leaves vt))
  \/ (exists k els a b w, spells l (IDec k els) /\ In (a, b, w) els /\
        ((forall l', In l' ls -> ~ line_id l' a) \/ (forall l', In l' ls -> ~ line_id l' b))).
Lemma no_leaf t v : ~ In v (leaves t) -> leaf_path t v = None.
Proof.
  intros N. pose proof (leaf_path_spec t v) as E. destruct (leaf_path t v) as [p|]; auto. exfalso. apply N. apply (HeapProofs.subtree_leaves _ _ _ _ E). left; auto.
Qed.
Lemma elems_abort cache els : forall s, elems_text s els -> (exists a b w, In (a, b, w) els /\ (Zlookup a cache = None \/ Zlookup b cache = None)) ->
  read_elems rd log0 (List.length els) cache (s, true) = Abort.
Proof.
  induction els as [|[[a b] w] els IH]; intros s E (a0 & b0 & w0 & I & L); [destruct I|].
  inversion E as [|? ? s1 ? s2 ? s3 ? U1 U2 W E']; subst. cbn [List.length read_elems].
  rewrite (u64_read _ _ _ U1), (u64_read _ _ _ U2), (word_read rd log0 _ _ _ W). cbn [get bind].
  destruct (Zlookup a cache) as [i|] eqn:LA; [|reflexivity]. cbn [bind]. destruct (Zlookup b cache) as [j|] eqn:LB; [|reflexivity]. cbn [bind].
  rewrite IH; auto. destruct I as [I|I]; [|eauto 10]. injection I as <- <- <-. destruct L; congruence.
Qed.
Lemma bad_line_stops fl m0 ls st l : from_lines m0 ls st -> bad_line (m_vt m0) ls l -> read_line rd log0 fl st l = Abort.
Proof.
  destruct st as [[[c r] p] m]. intros (F & V & _) B. unfold read_line.
  destruct B as [B|[(H & B)|[(k & x & S & N)|[(k & v & a & b & S & N)|(k & els & a & b & w & S & I & N)]]]].
  - repeat match goal with |- context [Ascii.eqb (head_char l) ?x] => destruct (Ascii.eqb_spec (head_char l) x) as [Q|_]; [exfalso; apply B; rewrite Q; simpl; tauto|] end. reflexivity.
  - rewrite H. cbn [Ascii.eqb Bool.eqb]. unfold substr. destruct (Nat.ltb_spec (List.length l) 5); [reflexivity|lia].
  - inversion S as [| |s ? s1 vt s2 ? rest U1 U2 U3| |]; subst. cbn [head_char Ascii.eqb Bool.eqb substr List.length Nat.ltb Nat.leb skipn bind].
    rewrite (u64_read _ _ _ U1), (u32_read _ _ _ U2), (i32_read _ _ _ U3). cbn [get bind]. unfold GetPsddLiteralNode. rewrite V, (no_leaf _ _ N). reflexivity.
  - inversion S as [| | |s ? s1 vt s2 ? s3 ? s4 ? rest U1 U2 U3 U4 U5|]; subst. cbn [head_char Ascii.eqb Bool.eqb substr List.length Nat.ltb Nat.leb skipn bind].
    rewrite (u64_read _ _ _ U1), (u32_read _ _ _ U2), (u32_read _ _ _ U3), (word_read rd log0 _ _ _ U4), (word_read rd log0 _ _ _ U5). cbn [get bind].
    unfold GetPsddTopNode. rewrite N2Z.id, V, (no_leaf _ _ N). reflexivity.
  - inversion S as [| | | |s ? s1 vt s2 ? s3 U1 U2 U3 U4]; subst. cbn [head_char Ascii.eqb Bool.eqb substr List.length Nat.ltb Nat.leb skipn bind assert].
    rewrite (u64_read _ _ _ U1), (i32_read _ _ _ U2), (u64_read _ _ _ U3). cbn [get bind]. rewrite Nat2Z.id, (elems_abort c els); auto.
    exists a, b, w. split; auto.
    destruct N as [N|N]; [left; destruct (Zlookup a c) eqn:L; auto|right; destruct (Zlookup b c) eqn:L; auto]; destruct (F _ _ L) as (l' & I' & D); exfalso; apply (N l' I' D).
Qed.
Theorem rejected content content1 l ls2 fl (m : mgr) : lines content = lines content1 ++ l :: ls2 -> bad_line (m_vt m) (lines content1) l ->
  ReadPsddFile rd log0 content fl m = bind (ReadPsddFile rd log0 content1 fl m) (fun _ => Abort).
Proof.
  intros E B. apply (read_app _ _ _ _ _ _ E). intros st H. cbn [foldM].
  rewrite (bad_line_stops fl m (lines content1) st l); auto. apply (lines_from_spec fl m (lines content1) [] _ _ (start_from m) H).
Qed.
(** Never accepted: a decision node without elements, a node before the number of nodes *)
Theorem undefined content content1 l ls2 fl (m : mgr) : lines content = lines content1 ++ l :: ls2 ->
  (exists k, spells l (IDec k [])) \/ (node_line l /\ forall l', In l' (lines content1) -> head_char l' <> "p"%char) ->
  forall x, ReadPsddFile rd log0 content fl m <> Ok x.
Proof.
  intros E B x H. unfold ReadPsddFile in H. rewrite E, foldM_app in H. destruct (foldM _ (lines content1) _) as [[[[c r] p] m1]| | |] eqn:E1; try discriminate.
  cbn [bind foldM] in H. destruct (read_line rd log0 fl (c, r, p, m1) l) as [st| | |] eqn:E2; try discriminate.
  pose proof (lines_from_spec fl m (lines content1) [] _ _ (start_from m) E1) as (_ & _ & F). clear H.
  destruct B as [(k & S)|(NL & N)].
  - inversion S as [| | | |s ? s1 vt s2 ? s3 U1 U2 U3 U4]; subst. unfold read_line in E2.
    cbn [head_char Ascii.eqb Bool.eqb substr List.length Nat.ltb Nat.leb skipn bind assert] in E2.
    rewrite (u64_read _ _ _ U1), (i32_read _ _ _ U2), (u64_read _ _ _ U3) in E2. discriminate.
  - assert (p = None) as -> by (destruct p; auto; destruct F as (l' & I & Q); [discriminate|]; exfalso; apply (N l' I Q)).
    unfold read_line in E2. destruct NL as [Q|[Q|[Q|[]]]]; rewrite <- Q in E2; cbn [Ascii.eqb Bool.eqb] in E2;
      match type of E2 with bind ?x _ = _ => destruct x as [[[k i] m2]| | |]; discriminate E2 end.
Qed.

(** ** Meaning *)
Context (val : P -> R) (HP : pexact P val).
(** what the ids stand for, latest first: the vtree node and the tree *)
Definition env := list (Z * (path * ptree)).
Inductive item_means (root : vtree) (e : env) : item -> env -> Prop :=
| im_comment : item_means root e Comment e
| im_count n : item_means root e (Count n) e
| im_lit k l p : subtree root p = Some (Leaf (Z.abs_N l)) -> item_means root e (ILit k l) ((k, (p, TLit l)) :: e)
| im_top k v neg pos p : subtree root p = Some (Leaf v) -> item_means root e (ITop k v neg pos) ((k, (p, TTop v (val pos) (val neg))) :: e)
| im_dec k els p l r tes : subtree root p = Some (VNode l r) -> els <> [] ->
    Forall2 (fun (x : Z * Z * P) te => Zlookup (fst (fst x)) e = Some (false :: p, tp te) /\ Zlookup (snd (fst x)) e = Some (true :: p, ts te) /\ tw te = val (snd x)) els tes ->
    item_means root e (IDec k els) ((k, (p, TDec tes)) :: e).
Inductive file_means (root : vtree) : env -> list item -> env -> Prop :=
| fm_nil e : file_means root e [] e
| fm_cons e it e1 its e2 : item_means root e it e1 -> file_means root e1 its e2 -> file_means root e (it :: its) e2.
Definition item_T (T : N -> R -> R -> Prop) (it : item) : Prop := match it with ITop _ v neg pos => T v (val pos) (val neg) | _ => True end.

Context (T : N -> R -> R -> Prop) (Tfun : forall v a b b', T v a b -> T v a b' -> b = b').
Definition stands (fl : N) (m : mgr) (x : Z * nat) (y : Z * (path * ptree)) : Prop :=
  fst x = fst y /\ exists t', node_at val m (snd x) (fst (snd y)) t' /\ shuffled (snd (snd y)) t' /\ flag_of (m_heap m) (snd x) = Some fl /\ In (snd x) (m_live m).
Lemma stands_ext fl (m m' : mgr) x y : mext fl m m' -> stands fl m x y -> stands fl m' x y.
Proof.
  intros X (K & t' & A & S & F & L). split; auto. exists t'. split; [exact (node_at_ext val fl m m' _ _ _ X A)|]. split; auto.
  split; [|apply (me_live _ _ _ X); auto]. destruct X as [_ (l & -> & _) _ _]. unfold flag_of in *.
  destruct (nth_error (m_heap m) (snd x)) as [nd|] eqn:E'; [|discriminate]. rewrite nth_error_app1; [rewrite E'; auto|]. apply nth_error_Some. congruence.
Qed.
Lemma stands_lookup fl (m : mgr) cache e k p t : Forall2 (stands fl m) cache e -> Zlookup k e = Some (p, t) ->
  exists i t', Zlookup k cache = Some i /\ node_at val m i p t' /\ shuffled t t'.
Proof.
  unfold Zlookup. induction 1 as [|[k1 i1] [k2 [p2 t2]] cache e (K & t' & A & S & _) F IH]; [discriminate|]. simpl in K, A, S. subst k2. cbn [alookup].
  destruct (Z.eqb k k1); auto. intros E. injection E as -> ->. eauto.
Qed.
Lemma item_read fl cache ro psz (m : mgr) l it e e1 : InvT val T fl m -> Forall2 (stands fl m) cache e -> spells l it -> item_T T it -> item_means (m_vt m) e it e1 ->
  psz <> None -> exists cache1 ro1 psz1 m1, read_line rd log0 fl (cache, ro, psz, m) l = Ok (cache1, ro1, psz1, m1) /\ psz1 <> None /\ InvT val T fl m1 /\ mext fl m m1 /\
    Forall2 (stands fl m1) cache1 e1 /\ (e1 = e -> cache1 = cache /\ ro1 = ro) /\ (e1 <> e -> exists k i c, cache1 = (k, i) :: c /\ ro1 = Some i).
Proof.
  intros I F S TT M NP.
  assert (forall (x : Z * (path * ptree)) (l : env), x :: l <> l) as NC by (intros x l0 Q; apply (f_equal (@List.length _)) in Q; simpl in Q; lia).
  assert (forall m', mext fl m m' -> Forall2 (stands fl m') cache e) as FX by (intros m' X; eapply Forall2_impl_in; [|exact F]; intros; eapply stands_ext; eauto).
  assert (mext fl m m) as MR by apply mext_refl.
  inversion M as [|n|k lit p SU|k v neg pos p SU|k els p lt rt tes SU NE FE]; subst.
  - inversion S; subst. exists cache, ro, psz, m. split; [reflexivity|]. do 4 (split; [auto|]). split; [auto|congruence].
  - inversion S as [|c1 c2 c3 c4 s ? rest U| | |]; subst. exists cache, ro, (Some n), m. split.
    { unfold read_line. cbn [head_char Ascii.eqb Bool.eqb substr List.length Nat.ltb Nat.leb skipn bind]. rewrite (u32_read _ _ _ U). reflexivity. }
    split; [discriminate|]. do 3 (split; [auto|]). split; [auto|congruence].
  - inversion S as [| |s ? s1 vt s2 ? rest U1 U2 U3| |]; subst.
    destruct (literalT_spec val HP T Tfun fl m lit p I SU) as (i & m1 & E1 & I1 & X & LV & A & FL).
    exists ((k, i) :: cache), (Some i), psz, m1. split.
    { unfold read_line. cbn [head_char Ascii.eqb Bool.eqb substr List.length Nat.ltb Nat.leb skipn bind].
      rewrite (u64_read _ _ _ U1), (u32_read _ _ _ U2), (i32_read _ _ _ U3). cbn [get bind]. rewrite E1. cbn [bind]. destruct psz; [reflexivity|congruence]. }
    do 3 (split; [auto|]). split; [|split; [intros Q; exfalso; apply (NC _ _ Q)|eauto 10]].
    constructor; auto. split; auto. exists (TLit lit). simpl. repeat split; auto; try apply A. constructor.
  - inversion S as [| | |s ? s1 vt s2 ? s3 ? s4 ? rest U1 U2 U3 U4 U5|]; subst.
    destruct (topT_spec val HP T Tfun fl m v pos neg p I SU TT) as (i & m1 & E1 & I1 & X & LV & A & FL).
    exists ((k, i) :: cache), (Some i), psz, m1. split.
    { unfold read_line. cbn [head_char Ascii.eqb Bool.eqb substr List.length Nat.ltb Nat.leb skipn bind].
      rewrite (u64_read _ _ _ U1), (u32_read _ _ _ U2), (u32_read _ _ _ U3), (word_read rd log0 _ _ _ U4), (word_read rd log0 _ _ _ U5). cbn [get bind].
      rewrite N2Z.id, E1. cbn [bind]. destruct psz; [reflexivity|congruence]. }
    do 3 (split; [auto|]). split; [|split; [intros Q; exfalso; apply (NC _ _ Q)|eauto 10]].
    constructor; auto. split; auto. exists (TTop v (val pos) (val neg)). simpl. repeat split; auto; try apply A. constructor.
  - inversion S as [| | | |s ? s1 vt s2 ? s3 U1 U2 U3 U4]; subst.
    assert (exists js tes1, Forall2 (fun (x : Z * Z * P) (e0 : elem P) => Zlookup (fst (fst x)) cache = Some (e_prime e0) /\ Zlookup (snd (fst x)) cache = Some (e_sub e0) /\ snd x = e_param e0) els js /\
      Forall (fun e0 => vt_of (m_heap m) (e_prime e0) = Some (false :: p) /\ vt_of (m_heap m) (e_sub e0) = Some (true :: p)) js /\
      Forall2 (ElemRep val (m_heap m)) js tes1 /\ Forall2 (fun te te1 => shuffled (tp te) (tp te1) /\ shuffled (ts te) (ts te1) /\ tw te1 = tw te) tes tes1) as (js & tes1 & J1 & J2 & J3 & J4).
    { clear NE S U3 U4 M TT. induction FE as [|[[a b] w] te els tes (A & B & C) FE IH]; [exists [], []; repeat split; constructor|]. simpl in A, B, C.
      destruct IH as (js & tes1 & J1 & J2 & J3 & J4).
      destruct (stands_lookup _ _ _ _ _ _ _ F A) as (i & t1 & A1 & A2 & A3). destruct (stands_lookup _ _ _ _ _ _ _ F B) as (j & t2 & B1 & B2 & B3).
      exists (MkE i j w :: js), ((t1, t2, tw te) :: tes1). split; [constructor; auto|]. split; [constructor; auto; split; [apply A2|apply B2]|].
      split; constructor; auto. split; [apply A2|]. split; [apply B2|]. exact C. }
    assert (js <> []) as NJ by (intros ->; inversion J1; congruence).
    destruct (new_decT_spec val HP T Tfun fl m p js tes1 I (ex_intro _ lt (ex_intro _ rt SU)) NJ J2 J3) as (i & m1 & tes2 & E1 & I1 & X & LV & PM & A & FL).
    exists ((k, i) :: cache), (Some i), psz, m1. split.
    { unfold read_line. cbn [head_char Ascii.eqb Bool.eqb substr List.length Nat.ltb Nat.leb skipn bind assert].
      rewrite (u64_read _ _ _ U1), (i32_read _ _ _ U2), (u64_read _ _ _ U3). cbn [get bind]. rewrite Nat2Z.id, (elems_read cache els _ U4 js J1). cbn [bind].
      destruct js as [|e0 js]; [congruence|]. inversion J2 as [|? ? (V1 & V2) _]; subst. cbn [map hd_error get bind] in *. rewrite V1. cbn [get bind]. rewrite V2. cbn [get bind vparent oeqb].
      rewrite path_eqb_refl. cbn [assert bind]. rewrite E1. cbn [bind]. destruct psz; [reflexivity|congruence]. }
    do 3 (split; [auto|]). split; [|split; [intros Q; exfalso; apply (NC _ _ Q)|eauto 10]].
    constructor; auto. split; auto. exists (TDec tes2). simpl. repeat split; auto; try apply A. econstructor; eauto.
Qed.
Lemma items_read fl ls its : Forall2 (spells) ls its -> forall cache ro psz (m : mgr) e e1, InvT val T fl m -> Forall2 (stands fl m) cache e ->
  Forall (item_T T) its -> file_means (m_vt m) e its e1 -> psz <> None -> ro = option_map snd (hd_error cache) ->
  exists cache1 psz1 m1, foldM (read_line rd log0 fl) ls (cache, ro, psz, m) = Ok (cache1, option_map snd (hd_error cache1), psz1, m1) /\ InvT val T fl m1 /\ mext fl m m1 /\ Forall2 (stands fl m1) cache1 e1.
Proof.
  induction 1 as [|l it ls its S SS IH]; intros cache ro psz m e e1 I F TT M NP RO; inversion M as [|? ? e0 ? ? M1 M2]; subst.
  - exists cache, psz, m. split; [reflexivity|]. split; auto. split; [apply mext_refl|auto].
  - inversion TT as [|? ? T1 T2]; subst.
    destruct (item_read fl cache (option_map snd (hd_error cache)) psz m l it e e0 I F S T1 M1 NP) as (c1 & r1 & p1 & m1 & E & NP1 & I1 & X & F1 & Same & New).
    assert (r1 = option_map snd (hd_error c1)) as RO1.
    { inversion M1; subst; try (destruct (Same eq_refl) as [-> ->]; reflexivity); destruct New as (k0 & i0 & c0 & -> & ->); try reflexivity; intros Q; apply (f_equal (@List.length _)) in Q; simpl in Q; lia. }
    rewrite <- (me_vt _ _ _ X) in M2. destruct (IH c1 r1 p1 m1 e0 e1 I1 F1 T2 M2 NP1 RO1) as (c2 & p2 & m2 & E2 & I2 & X2 & F2).
    exists c2, p2, m2. cbn [foldM]. rewrite E. cbn [bind]. split; [exact E2|]. split; auto. split; [eapply mext_trans; eauto|auto].
Qed.
Lemma comments_read fl cs its : Forall2 (spells) cs its -> Forall (eq Comment) its -> forall st, foldM (read_line rd log0 fl) cs st = Ok st.
Proof.
  induction 1 as [|l it cs its S SS IH]; intros C [[[c r] p] m]; [reflexivity|]. inversion C; subst. inversion S; subst. cbn [foldM]. unfold read_line at 1.
  cbn [head_char Ascii.eqb Bool.eqb bind]. apply IH; auto.
Qed.
Theorem read_as_described content cs n its fl (m : mgr) e : InvT val T fl m -> Forall2 (spells) (lines content) (cs ++ Count n :: its) -> Forall (eq Comment) cs ->
  Forall (item_T T) its -> file_means (m_vt m) [] its e ->
  exists r m', ReadPsddFile rd log0 content fl m = Ok (r, m') /\ InvT val T fl m' /\ mext fl m m' /\
    match e with
    | [] => r = None
    | (k, (p, t)) :: _ => exists j t', r = Some j /\ node_at val m' j p t' /\ shuffled t t' /\ flag_of (m_heap m') j = Some fl /\ In j (m_live m')
    end.
Proof.
  intros I S C TT M. apply Forall2_app_inv_r in S as (l1 & l2 & S1 & S2 & E). inversion S2 as [|l ? ls ? S3 S4]; subst.
  unfold ReadPsddFile. rewrite E, foldM_app, (comments_read fl _ _ S1 C). cbn [bind foldM].
  inversion S3 as [|c1 c2 c3 c4 s ? rest U| | |]; subst.
  assert (read_line rd log0 fl ([], None, None, m) ("p"%char :: c1 :: c2 :: c3 :: c4 :: s) = Ok ([], None, Some n, m)) as ->.
  { unfold read_line. cbn [head_char Ascii.eqb Bool.eqb substr List.length Nat.ltb Nat.leb skipn bind]. rewrite (u32_read _ _ _ U). reflexivity. }
  cbn [bind]. destruct (items_read fl ls its S4 [] None (Some n) m [] e I) as (c & p & m1 & E1 & I1 & X & F); auto; try discriminate.
  rewrite E1. cbn [bind]. exists (option_map snd (hd_error c)), m1. split; [reflexivity|]. split; auto. split; auto.
  destruct F as [|[k i] [k' [q t]] c e (K & t' & A & SH & FL & LV) F]; [reflexivity|]. simpl in *. exists i, t'. auto.
Qed.
End File.
