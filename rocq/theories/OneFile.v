(** Reading a file whose PSDD is held already returns the held node (C70). *)
From Coq Require Import Ascii Reals Lra Sorted.
From Verif Require Import Base Param ParamProofs Vtree VtreeProofs Spec SpecProofs TreeProofs Heap Manager HeapProofs SerProofs
  RepProofs OrderProofs CanonProofs LoadProofs MulProofs ReplayProofs Text IO IOProofs Data Uai NumProofs FileProofs ProductTrees ProductNodes OneNode.

Section OneFile.
Context {P : pops} (val : P -> R) (HP : pexact P val).
Notation heap := (heap P). Notation mgr := (mgr P). Notation node := (node P).
Context (rd : text -> option P) (log0 : P).

Lemma unique_kept fl (m : mgr) (nd : node) i m' : sortedH m -> n_flag nd = fl ->
  (forall es, n_body nd = BDec es -> StronglySorted ple es /\ forall e, In e es -> kept fl m (e_prime e) /\ kept fl m (e_sub e)) ->
  GetUniqueNode m nd = (i, m') -> kept fl m' i /\ grow m m' /\ sortedH m'.
Proof.
  intros S F C E. unfold GetUniqueNode in E. destruct (find _ (m_live m)) as [k|] eqn:Q; injection E as <- <-.
  - apply find_some in Q as [L Q]. destruct (nth_error (m_heap m) k) as [b|] eqn:Eb; [|discriminate]. apply andb_true_iff in Q as [_ Q].
    split; [|split; [apply grow_refl|auto]]. pose proof (equiv_flag nd b Q) as Fb. apply (equiv_sim val HP) in Q.
    destruct (n_body nd) as [l|v x y|es] eqn:B1, (n_body b) as [l'|v' x' y'|es'] eqn:B2; simpl in Q; try contradiction.
    + eapply kept_leaf; eauto; congruence.
    + eapply kept_leaf; eauto; congruence.
    + destruct (C es eq_refl) as [_ K]. refine (kept_dec fl m k b es' Eb B2 L _ (S _ _ _ Eb B2) _ _); [congruence| |];
        intros e He; destruct (Forall2_in_r _ _ _ _ Q He) as (e0 & He0 & Q1 & Q2 & _); destruct (K e0 He0); congruence.
  - assert (grow m (MkM (m_vt m) (m_heap m ++ [nd]) (m_live m ++ [length (m_heap m)]))) as G.
    { split; [reflexivity|]. split; [eexists; reflexivity|]. apply incl_appl, incl_refl. }
    assert (nth_error (m_heap m ++ [nd]) (length (m_heap m)) = Some nd) as En by (rewrite nth_error_app2, Nat.sub_diag by auto; auto).
    assert (In (length (m_heap m)) (m_live m ++ [length (m_heap m)])) as L by (apply in_or_app; right; left; auto).
    split; [|split; auto].
    + destruct (n_body nd) as [l|v x y|es] eqn:B1.
      * refine (kept_leaf fl (MkM _ _ _) (length (m_heap m)) nd En _ L F). congruence.
      * refine (kept_leaf fl (MkM _ _ _) (length (m_heap m)) nd En _ L F). congruence.
      * destruct (C es eq_refl) as [SO K]. refine (kept_dec fl (MkM _ _ _) (length (m_heap m)) nd es En B1 L F SO _ _); intros e He; eapply kept_grow; eauto; apply K; auto.
    + intros k b es Ek Bk. simpl in Ek. destruct (Nat.lt_ge_cases k (length (m_heap m))) as [Lk|Lk].
      * rewrite nth_error_app1 in Ek by auto. eapply S; eauto.
      * rewrite nth_error_app2 in Ek by auto. destruct (k - length (m_heap m))%nat as [|[|]]; simpl in Ek; try discriminate. injection Ek as <-. apply C; auto.
Qed.
Lemma dec_kept fl (m : mgr) p ps ss ws i m' : sortedH m -> Forall (kept fl m) ps -> Forall (kept fl m) ss -> new_dec m p fl ps ss ws = Ok (i, m') ->
  kept fl m' i /\ grow m m' /\ sortedH m'.
Proof.
  intros S F1 F2 E. unfold new_dec in E. bk E as es E1. injection E as E. apply (unique_kept fl) in E; auto.
  intros es0 B. injection B as <-. split; [apply sort_sorted|]. intros e He. apply (Permutation_in _ (sort_elems_perm es)) in He.
  apply mk_elems_spec in E1 as [<- <-]. rewrite Forall_forall in F1, F2. split; [apply F1|apply F2]; apply in_map; auto.
Qed.
Definition cache_kept fl (m : mgr) (cache : list (Z * nat)) : Prop := forall k i, In (k, i) cache -> kept fl m i.
Lemma Zlookup_in {A} k (l : list (Z * A)) x : Zlookup k l = Some x -> exists k', In (k', x) l.
Proof.
  unfold Zlookup. induction l as [|[k1 y] l IH]; cbn [alookup]; [discriminate|]. destruct (Z.eqb k k1).
  - intros E. injection E as ->. exists k1. left. auto.
  - intros E. destruct (IH E) as [k' I]. exists k'. right. auto.
Qed.
Lemma elems_kept fl (m : mgr) cache : cache_kept fl m cache -> forall n s ps ss ws, read_elems rd log0 n cache s = Ok (ps, ss, ws) -> Forall (kept fl m) ps /\ Forall (kept fl m) ss.
Proof.
  intros K. induction n as [|n IH]; intros s ps ss ws E; cbn [read_elems] in E; [injection E as <- <- <-; auto|].
  destruct (ex_u64 s) as [a s1], (ex_u64 s1) as [b s2], (ex_word rd log0 s2) as [w s3].
  bk E as a' _. bk E as i1 Q1. bk E as b' _. bk E as j1 Q2. bk E as w' _. bk E as [[ps1 ss1] ws1] E1. injection E as <- <- <-.
  apply IH in E1 as [H1 H2].
  destruct (Zlookup a' cache) as [i2|] eqn:L1; [|discriminate]. destruct (Zlookup b' cache) as [j2|] eqn:L2; [|discriminate]. injection Q1 as ->. injection Q2 as ->.
  apply Zlookup_in in L1 as (k1 & I1), L2 as (k2 & I2). split; constructor; eauto.
Qed.
Lemma line_kept fl cache ro psz (m : mgr) l cache' ro' psz' m' : sortedH m -> cache_kept fl m cache -> (forall i, ro = Some i -> kept fl m i) ->
  read_line rd log0 fl (cache, ro, psz, m) l = Ok (cache', ro', psz', m') ->
  sortedH m' /\ cache_kept fl m' cache' /\ (forall i, ro' = Some i -> kept fl m' i) /\ grow m m'.
Proof.
  intros S C R E. unfold read_line in E. destruct (Ascii.eqb (head_char l) "c"); [injection E as <- <- <- <-; auto using grow_refl|].
  destruct (Ascii.eqb (head_char l) "p"). { bk E as s Es. injection E as <- <- <- <-. auto using grow_refl. }
  bk E as [[k i] m1] E1. bk E as z _. injection E as <- <- <- <-.
  assert (kept fl m1 i /\ grow m m1 /\ sortedH m1) as (K & G & S1).
  { destruct (Ascii.eqb (head_char l) "L"); [|destruct (Ascii.eqb (head_char l) "T")].
    - bk E1 as s Es. destruct (ex_u64 (s, true)) as [k0 s1], (ex_u32 s1) as [v0 s2], (ex_i32 s2) as [l0 s3]. bk E1 as l' _. bk E1 as [i0 m0] E2. bk E1 as k' _. injection E1 as <- <- <-.
      unfold GetPsddLiteralNode in E2. destruct (leaf_path _ _); [|discriminate]. injection E2 as E2. eapply unique_kept in E2; eauto. intros es B. discriminate B.
    - bk E1 as s Es. destruct (ex_u64 (s, true)) as [k0 s1], (ex_u32 s1) as [v0 s2], (ex_u32 s2) as [v1 s3], (ex_word rd log0 s3) as [ne s4], (ex_word rd log0 s4) as [po s5].
      bk E1 as v' _. bk E1 as po' _. bk E1 as ne' _. bk E1 as [i0 m0] E2. bk E1 as k' _. injection E1 as <- <- <-.
      unfold GetPsddTopNode in E2. destruct (leaf_path _ _); [|discriminate]. injection E2 as E2. eapply unique_kept in E2; eauto. intros es B. discriminate B.
    - bk E1 as u _. bk E1 as s Es. destruct (ex_u64 (s, true)) as [k0 s1], (ex_i32 s1) as [v0 s2], (ex_u64 s2) as [n0 s3].
      bk E1 as n' _. bk E1 as [[ps ss] ws] E2. bk E1 as p0 _. bk E1 as s0 _. bk E1 as vp _. bk E1 as vs _. bk E1 as u1 _. bk E1 as nx _. bk E1 as [i0 m0] E3. bk E1 as k' _. injection E1 as <- <- <-.
      apply (elems_kept fl m cache C) in E2 as [F1 F2]. eapply dec_kept in E3; eauto. }
  split; auto. split; [|split; auto].
  - intros k1 i1 [Q|I]; [injection Q as <- <-; auto|]. eapply kept_grow; eauto.
  - intros i1 Q. injection Q as <-. auto.
Qed.
Lemma lines_kept fl ls : forall cache ro psz (m : mgr) cache' ro' psz' m', sortedH m -> cache_kept fl m cache -> (forall i, ro = Some i -> kept fl m i) ->
  foldM (read_line rd log0 fl) ls (cache, ro, psz, m) = Ok (cache', ro', psz', m') -> sortedH m' /\ cache_kept fl m' cache' /\ (forall i, ro' = Some i -> kept fl m' i) /\ grow m m'.
Proof.
  induction ls as [|l ls IH]; intros cache ro psz m cache' ro' psz' m' S C R E; cbn [foldM] in E; [injection E as <- <- <- <-; auto using grow_refl|].
  bk E as [[[c1 r1] p1] m1] E1. apply (line_kept fl) in E1 as (S1 & C1 & R1 & G1); auto. apply IH in E as (S2 & C2 & R2 & G2); auto. split; auto. split; auto. split; auto.
  eapply grow_trans; eauto.
Qed.
(** Whatever is read, the node returned and all below it are in the table with the flag. *)
Theorem read_kept content fl (m : mgr) i m' : sortedH m -> ReadPsddFile rd log0 content fl m = Ok (Some i, m') -> kept fl m' i /\ grow m m' /\ sortedH m'.
Proof.
  intros S E. unfold ReadPsddFile in E. bk E as [[[c r] p] m1] E1. cbn [fst snd] in E. injection E as -> <-.
  apply (lines_kept fl) in E1 as (S1 & _ & R & G); auto. { intros k j []. } { discriminate. }
Qed.
Theorem file_held (T : N -> R -> R -> Prop) (Tfun : forall v a b b', T v a b -> T v a b' -> b = b') content cs n its fl (m : mgr) e k p t i t' :
  InvT val T fl m -> sortedH m -> Forall2 (spells rd) (lines content) (cs ++ Count n :: its) -> Forall (eq Comment) cs ->
  Forall (item_T val T) its -> file_means val (m_vt m) [] its ((k, (p, t)) :: e) -> deterministic t -> node_at val m i p t' -> shuffled t t' -> kept fl m i ->
  exists m', ReadPsddFile rd log0 content fl m = Ok (Some i, m') /\ grow m m'.
Proof.
  intros I S SP CO TT M D A SH K. destruct (read_as_described rd log0 val HP T Tfun content cs n its fl m _ I SP CO TT M) as (r & m' & E & I' & X & j & t1 & -> & A1 & S1 & F1 & L1).
  pose proof (read_kept content fl m j m' S E) as (K1 & G & _). exists m'. split; auto.
  rewrite (same_shuffled val HP fl m' (proj1 I') t p j i t1 t') in E; auto.
  - eapply node_at_grow; eauto.
  - eapply kept_grow; eauto.
Qed.
(** ** The table is unchanged if everything in the file is held. *)
Definition env_held fl (m : mgr) (e : list (Z * (path * ptree))) : Prop :=
  forall k p t, In (k, (p, t)) e -> deterministic t /\ exists i t', node_at val m i p t' /\ shuffled t t' /\ kept fl m i.
Lemma means_sub root its : forall e e1, file_means val root e its e1 -> incl e e1.
Proof.
  induction its as [|it its IH]; intros e e1 M; inversion M as [|? ? e2 ? ? M1 M2]; subst; [apply incl_refl|]. apply IH in M2. inversion M1; subst; auto; (eapply incl_tran; [|exact M2]; apply incl_tl, incl_refl).
Qed.
Definition stands_for fl (m : mgr) (x : Z * nat) (y : Z * (path * ptree)) : Prop :=
  fst x = fst y /\ exists t', node_at val m (snd x) (fst (snd y)) t' /\ shuffled (snd (snd y)) t' /\ kept fl m (snd x).
Lemma for_lookup fl (m : mgr) cache e k p t : Forall2 (stands_for fl m) cache e -> Zlookup k e = Some (p, t) ->
  exists i t', Zlookup k cache = Some i /\ node_at val m i p t' /\ shuffled t t' /\ kept fl m i.
Proof.
  unfold Zlookup. induction 1 as [|[k1 i1] [k2 [p2 t2]] cache e (K & t' & A & S & H) F IH]; [discriminate|]. simpl in K, A, S, H. subst k2. cbn [alookup].
  destruct (Z.eqb k k1); auto. intros E. injection E as -> ->. eauto 6.
Qed.
Lemma item_held fl cache ro psz (m : mgr) l it e e1 : Wf m -> Forall2 (stands_for fl m) cache e -> spells rd l it -> item_means val (m_vt m) e it e1 -> env_held fl m e1 ->
  psz <> None -> exists cache1 ro1 psz1, read_line rd log0 fl (cache, ro, psz, m) l = Ok (cache1, ro1, psz1, m) /\ psz1 <> None /\
    Forall2 (stands_for fl m) cache1 e1 /\ (ro = option_map snd (hd_error cache) -> ro1 = option_map snd (hd_error cache1)).
Proof.
  intros W F S M H NP. inversion M as [|n|k lit p SU|k v neg pos p SU|k els p lt rt tes SU NE FE]; subst.
  - inversion S; subst. exists cache, ro, psz. split; [reflexivity|auto].
  - inversion S as [|c1 c2 c3 c4 s ? rest U| | |]; subst. exists cache, ro, (Some n). split.
    { unfold read_line. cbn [head_char Ascii.eqb Bool.eqb substr List.length Nat.ltb Nat.leb skipn bind]. rewrite (u32_read _ _ _ U). reflexivity. }
    split; [discriminate|auto].
  - inversion S as [| |s ? s1 vt s2 ? rest U1 U2 U3| |]; subst.
    destruct (H _ _ _ (or_introl eq_refl)) as (_ & i & t' & A & SH & K). inversion SH; subst.
    exists ((k, i) :: cache), (Some i), psz. split.
    { unfold read_line. cbn [head_char Ascii.eqb Bool.eqb substr List.length Nat.ltb Nat.leb skipn bind].
      rewrite (u64_read _ _ _ U1), (u32_read _ _ _ U2), (i32_read _ _ _ U3). cbn [get bind]. rewrite (lit_held val HP fl m i p lit W K A). cbn [bind]. destruct psz; [reflexivity|congruence]. }
    split; auto. split; auto. constructor; auto. split; auto. exists (TLit lit). simpl. auto.
  - inversion S as [| | |s ? s1 vt s2 ? s3 ? s4 ? rest U1 U2 U3 U4 U5|]; subst.
    destruct (H _ _ _ (or_introl eq_refl)) as (_ & i & t' & A & SH & K). inversion SH; subst.
    exists ((k, i) :: cache), (Some i), psz. split.
    { unfold read_line. cbn [head_char Ascii.eqb Bool.eqb substr List.length Nat.ltb Nat.leb skipn bind].
      rewrite (u64_read _ _ _ U1), (u32_read _ _ _ U2), (u32_read _ _ _ U3), (word_read rd log0 _ _ _ U4), (word_read rd log0 _ _ _ U5). cbn [get bind].
      rewrite N2Z.id, (top_held val HP fl m i p v _ _ pos neg W K A eq_refl). cbn [bind]. destruct psz; [reflexivity|congruence]. }
    split; auto. split; auto. constructor; auto. split; auto. eexists. simpl. split; [exact A|]. auto.
  - inversion S as [| | | |s ? s1 vt s2 ? s3 U1 U2 U3 U4]; subst.
    destruct (H _ _ _ (or_introl eq_refl)) as (D & i & t' & A & SH & K).
    assert (exists js, Forall2 (fun (x : Z * Z * P) (e0 : elem P) => Zlookup (fst (fst x)) cache = Some (e_prime e0) /\ Zlookup (snd (fst x)) cache = Some (e_sub e0) /\ snd x = e_param e0) els js /\
      Forall2 (elem_held val fl m p) js tes) as (js & J1 & J2).
    { clear NE S U3 U4 M H SH D A. induction FE as [|[[a b] w] te els tes (A & B & C) FE IH]; [exists []; split; constructor|]. simpl in A, B, C.
      destruct IH as (js & J1 & J2).
      destruct (for_lookup _ _ _ _ _ _ _ F A) as (i1 & t1 & A1 & A2 & A3 & A4). destruct (for_lookup _ _ _ _ _ _ _ F B) as (j1 & t2 & B1 & B2 & B3 & B4).
      exists (MkE i1 j1 w :: js). split; constructor; auto. exists t1, t2. simpl. auto 10. }
    assert (js <> []) as NJ by (intros ->; inversion J1; congruence). assert (tes <> []) as NT by (intros ->; inversion FE; congruence).
    pose proof (dec_held val HP fl m i p tes t' js W K A SH D NT J2) as E1.
    exists ((k, i) :: cache), (Some i), psz. split.
    { unfold read_line. cbn [head_char Ascii.eqb Bool.eqb substr List.length Nat.ltb Nat.leb skipn bind assert].
      rewrite (u64_read _ _ _ U1), (i32_read _ _ _ U2), (u64_read _ _ _ U3). cbn [get bind]. rewrite Nat2Z.id, (elems_read rd log0 cache els _ U4 js J1). cbn [bind].
      destruct js as [|e0 js]; [congruence|]. inversion J2 as [|? ? ? ? (x1 & x2 & [V1 _] & [V2 _] & _) _]; subst. cbn [map hd_error get bind] in *. rewrite V1. cbn [get bind]. rewrite V2. cbn [get bind vparent oeqb].
      rewrite path_eqb_refl. cbn [assert bind]. rewrite E1. cbn [bind]. destruct psz; [reflexivity|congruence]. }
    split; auto. split; auto. constructor; auto. split; auto. exists t'. simpl. auto.
Qed.
Theorem file_unchanged content cs n its fl (m : mgr) k p t e : Wf m -> Forall2 (spells rd) (lines content) (cs ++ Count n :: its) -> Forall (eq Comment) cs ->
  file_means val (m_vt m) [] its ((k, (p, t)) :: e) -> env_held fl m ((k, (p, t)) :: e) ->
  exists i t', ReadPsddFile rd log0 content fl m = Ok (Some i, m) /\ node_at val m i p t' /\ shuffled t t' /\ kept fl m i.
Proof.
  intros W SP CO M H. apply Forall2_app_inv_r in SP as (l1 & l2 & S1 & S2 & EL). inversion S2 as [|lc ? ls ? SC S3]; subst.
  assert (forall ls its, Forall2 (spells rd) ls its -> forall cache ro psz e0 e1, Forall2 (stands_for fl m) cache e0 -> file_means val (m_vt m) e0 its e1 -> env_held fl m e1 -> psz <> None ->
    ro = option_map snd (hd_error cache) -> exists cache1 psz1, foldM (read_line rd log0 fl) ls (cache, ro, psz, m) = Ok (cache1, option_map snd (hd_error cache1), psz1, m) /\ Forall2 (stands_for fl m) cache1 e1) as IT.
  { clear - W HP. induction 1 as [|l it ls its S SS IH]; intros cache ro psz e0 e1 F M H NP RO; inversion M as [|? ? e2 ? ? M1 M2]; subst.
    - exists cache, psz. split; [reflexivity|auto].
    - destruct (item_held fl cache (option_map snd (hd_error cache)) psz m l it e0 e2 W F S M1) as (c1 & r1 & p1 & E & NP1 & F1 & R1); auto.
      { intros k p t I. apply H with k. eapply means_sub; eauto. }
      destruct (IH c1 r1 p1 e2 e1 F1 M2 H NP1 (R1 eq_refl)) as (c2 & p2 & E2 & F2). exists c2, p2. cbn [foldM]. rewrite E. cbn [bind]. auto. }
  inversion SC as [|c1 c2 c3 c4 s ? rest U| | |]; subst.
  destruct (IT ls its S3 [] None (Some n) [] _ ltac:(constructor) M H ltac:(discriminate) eq_refl) as (c1' & p1 & E & F).
  inversion F as [|[k1 i] ? c2' ? (Q & t' & A & SH & K) F']; subst. simpl in Q, A, SH, K. subst k1.
  exists i, t'. split; [|auto]. unfold ReadPsddFile. rewrite EL.
  assert (forall s1 s2 st, foldM (read_line rd log0 fl) (s1 ++ s2) st = bind (foldM (read_line rd log0 fl) s1 st) (foldM (read_line rd log0 fl) s2)) as FA.
  { induction s1 as [|x s1 IH]; intros s2 st; simpl; auto. destruct (read_line rd log0 fl st x); simpl; auto. }
  rewrite FA, (comments_read rd log0 fl l1 cs S1 CO). cbn [bind foldM].
  assert (read_line rd log0 fl ([], None, None, m) ("p"%char :: c1 :: c2 :: c3 :: c4 :: s) = Ok ([], None, Some n, m)) as EH.
  { unfold read_line. cbn [head_char Ascii.eqb Bool.eqb substr List.length Nat.ltb Nat.leb skipn bind]. rewrite (u32_read _ _ _ U). reflexivity. }
  rewrite EH. cbn [bind]. rewrite E. reflexivity.
Qed.
End OneFile.

(** ** Writing and reading back *)
Section Back.
Context {P : pops} (val : P -> R) (HP : pexact P val).
Theorem written_held (show : P -> text) (rd : text -> option P) log0 rnd (show_plain : forall a, Forall plain (show a)) (show_ne : forall a, show a <> [])
  (T : N -> R -> R -> Prop) (Tfun : forall v a b b', T v a b -> T v a b' -> b = b') sroot (hs : heap P) ud root q0 s t (m : mgr P) fl p i t' :
  heap_ok sroot hs -> vt_of hs root = Some q0 -> subtree sroot q0 = Some s -> fits sroot hs ->
  (forall i nd a, reach hs root i -> nth_error hs i = Some nd -> In a (params nd) -> rd (show a) = Some (rnd a)) ->
  Rep (vr val rnd) hs root t -> tops_T T t -> subtree (m_vt m) p = Some s -> InvT val T fl m -> sortedH m ->
  deterministic t -> node_at val m i p t' -> shuffled t t' -> kept fl m i ->
  exists content ud' m', WritePsddToFile show sroot hs ud root = Ok (content, ud') /\ ReadPsddFile rd log0 content fl m = Ok (Some i, m') /\ grow m m'.
Proof.
  intros HO Hq Hs FT RD Rt TT Sm I S D A SH K.
  destruct (write_read val HP show rd log0 rnd show_plain show_ne T Tfun sroot hs ud root q0 s t m fl p HO Hq Hs FT RD Rt TT Sm I) as (c & ud' & j & m' & t1 & E1 & _ & _ & E2 & I' & X & A1 & S1 & _).
  destruct (read_kept val HP rd log0 c fl m j m' S E2) as (K1 & G & _). exists c, ud', m'. split; auto. split; auto.
  rewrite (same_shuffled val HP fl m' (proj1 I') t p j i t1 t') in E2; auto.
  - eapply node_at_grow; eauto.
  - eapply kept_grow; eauto.
Qed.
End Back.
