(** Model of the hash values of nodes (CalculateHashValue, src/psdd_node.cpp 799-803, 907-917, 1000-1005), and how many elements the nodes have
    that an operation adds (C77). *)
From Verif Require Import Base Param Vtree Heap Manager Query Learn Sdd Text Pgm IO.

(** ** The model.  std::size_t has 64 bits.  The functions std::hash are whatever the library provides. *)
Section Hash.
Context {P : pops} (hash_lit : Z -> N) (hash_u64 : N -> N) (hash_u32 : N -> N) (hash_param : P -> N).
(** x << k: undefined if k is at least the width *)
Definition shl (x : N) (k : nat) : res N :=
  if Nat.ltb k 64 then Ok (N.modulo (N.shiftl x (N.of_nat k)) (2 ^ 64)) else UB.
(** The loop of PsddDecisionNode::CalculateHashValue, psdd_node.cpp 910-914, from element [k] on *)
Fixpoint elems_hash (k : nat) (es : list (elem P)) (acc : N) : res N :=
  match es with
  | [] => Ok acc
  | e :: es' =>
      do a <- shl (hash_u64 (N.of_nat (e_prime e))) k ;;
      do b <- shl (hash_u64 (N.of_nat (e_sub e))) k ;;
      do c <- shl (hash_param (e_param e)) k ;;
      elems_hash (S k) es' (N.lxor (N.lxor (N.lxor acc a) b) c)
  end.
(** CalculateHashValue, called by every constructor *)
Definition CalculateHashValue (nd : node P) : res N :=
  match n_body nd with
  | BLit l => do f <- shl (hash_u64 (n_flag nd)) 1 ;; Ok (N.lxor (hash_lit l) f)
  | BTop v pt _ =>
      do a <- shl (hash_param pt) 1 ;;
      do f <- shl (hash_u64 (n_flag nd)) 2 ;;
      Ok (N.lxor (N.lxor (hash_u32 v) a) f)
  | BDec es => elems_hash 0 es (hash_u64 (n_flag nd))
  end.

(** Number of elements of a decision node; a leaf counts as one. *)
Definition elements (nd : node P) : nat := match n_body nd with BDec es => length es | _ => 1 end.
Lemma elems_hash_ok es : forall k acc, k + length es <= 64 -> exists h, elems_hash k es acc = Ok h.
Proof.
  induction es as [|e es IH]; intros k acc L; cbn [elems_hash length] in *; [eauto|].
  assert (Q : Nat.ltb k 64 = true) by (apply Nat.ltb_lt; lia). unfold shl. rewrite Q. cbn [bind]. apply IH. lia.
Qed.
Lemma elems_hash_ub es : forall k acc, k <= 64 -> 64 < k + length es -> elems_hash k es acc = UB.
Proof.
  induction es as [|e es IH]; intros k acc K L; cbn [elems_hash length] in *; [lia|].
  unfold shl. destruct (Nat.ltb k 64) eqn:Q; cbn [bind]; auto. apply Nat.ltb_lt in Q. apply IH; lia.
Qed.
(** Defined exactly up to 64 elements. *)
Theorem hash_defined nd :
  (elements nd <= 64 -> exists h, CalculateHashValue nd = Ok h) /\ (64 < elements nd -> CalculateHashValue nd = UB).
Proof.
  unfold CalculateHashValue, elements. destruct (n_body nd) as [l|v a b|es]; split; intros L; try lia; unfold shl; cbn; eauto.
  - apply elems_hash_ok. lia.
  - apply elems_hash_ub; lia.
Qed.
Lemma elems_hash_eq (HP : forall a b : P, peq a b = true -> hash_param a = hash_param b) ea : forall eb k acc, elems_eq ea eb = true -> elems_hash k ea acc = elems_hash k eb acc.
Proof.
  induction ea as [|x ea IH]; intros [|y eb] k acc E; cbn [elems_eq] in E; try discriminate; auto.
  apply andb_true_iff in E as [E E4]. apply andb_true_iff in E as [E E3]. apply andb_true_iff in E as [E1 E2].
  apply Nat.eqb_eq in E1, E2. apply HP in E3. cbn [elems_hash]. rewrite E1, E2, E3.
  destruct (shl (hash_u64 (N.of_nat (e_prime y))) k); cbn [bind]; auto. destruct (shl (hash_u64 (N.of_nat (e_sub y))) k); cbn [bind]; auto.
  destruct (shl (hash_param (e_param y)) k); cbn [bind]; auto.
Qed.
(** Equal nodes have equal hash values. *)
Theorem hash_equal (HP : forall a b : P, peq a b = true -> hash_param a = hash_param b) a b :
  node_eq a b = true -> CalculateHashValue a = CalculateHashValue b.
Proof.
  unfold node_eq, CalculateHashValue. destruct (n_body a) as [la|va ta fa|ea], (n_body b) as [lb|vb tb fb|eb]; intros E; try discriminate.
  - apply andb_true_iff in E as [E1 E2]. apply Z.eqb_eq in E1. apply N.eqb_eq in E2. rewrite E1, E2. reflexivity.
  - apply andb_true_iff in E as [E E3]. apply andb_true_iff in E as [E1 E2]. apply N.eqb_eq in E1, E2. apply HP in E3. rewrite E1, E2, E3. reflexivity.
  - apply andb_true_iff in E as [E1 E2]. apply N.eqb_eq in E1. rewrite E1. apply elems_hash_eq; auto.
Qed.
End Hash.

(** ** How many elements the new nodes have *)
Section Narrow.
Context {P : pops}.
Notation heap := (heap P). Notation mgr := (mgr P). Notation node := (node P).
(** [m'] is [m] with more nodes, of at most [k] elements each. *)
Definition grows (k : nat) (m m' : mgr) : Prop :=
  m_vt m' = m_vt m /\ exists l, m_heap m' = m_heap m ++ l /\ Forall (fun nd => elements nd <= k) l.
Lemma grows_refl k (m : mgr) : grows k m m.
Proof. split; auto. exists []. rewrite app_nil_r. auto. Qed.
Lemma grows_trans k m1 m2 m3 : grows k m1 m2 -> grows k m2 m3 -> grows k m1 m3.
Proof.
  intros (V1 & l1 & E1 & F1) (V2 & l2 & E2 & F2). split; [congruence|]. exists (l1 ++ l2). rewrite E2, E1, app_assoc. split; auto.
  apply Forall_app; auto.
Qed.
Lemma grows_le k k' m m' : grows k m m' -> k <= k' -> grows k' m m'.
Proof. intros (V & l & E & F) L. split; auto. exists l. split; auto. eapply Forall_impl; [|exact F]. simpl. intros; lia. Qed.
Lemma unique_grows m nd i m' : GetUniqueNode m nd = (i, m') -> grows (elements nd) m m'.
Proof.
  unfold GetUniqueNode. destruct (find _ (m_live m)); intros E; injection E as _ <-; [apply grows_refl|]. split; auto. exists [nd]. auto.
Qed.
Lemma literal_grows m l fl i m' : GetPsddLiteralNode m l fl = Ok (i, m') -> grows 1 m m'.
Proof. unfold GetPsddLiteralNode. destruct (leaf_path _ _) as [p|]; intros E; [|discriminate]. assert (Q : GetUniqueNode m (MkN p fl (BLit l)) = (i, m')) by congruence. apply (unique_grows _ _ _ _ Q). Qed.
Lemma top_grows m v fl a b i m' : GetPsddTopNode m v fl a b = Ok (i, m') -> grows 1 m m'.
Proof. unfold GetPsddTopNode. destruct (leaf_path _ _) as [p|]; intros E; [|discriminate]. assert (Q : GetUniqueNode m (MkN p fl (BTop v a b)) = (i, m')) by congruence. apply (unique_grows _ _ _ _ Q). Qed.
Lemma mk_elems_len (ws : list P) ps : forall k ss es, mk_elems ws k ps ss = Ok es -> length es = length ps.
Proof.
  induction ps as [|p ps IH]; intros k [|s ss] es E; simpl in E; try discriminate; [injection E as <-; auto|].
  bk E as w _. bk E as es1 E1. injection E as <-. simpl. f_equal. eauto.
Qed.
Lemma insert_len (e : elem P) l : length (insert_elem e l) = S (length l).
Proof. induction l as [|x l IH]; simpl; auto. destruct (Nat.leb _ _); simpl; auto. Qed.
Lemma sort_len (l : list (elem P)) : length (sort_elems l) = length l.
Proof. induction l as [|e l IH]; simpl; auto. rewrite insert_len. auto. Qed.
Lemma dec_grows m p fl ps ss ws i m' : new_dec m p fl ps ss ws = Ok (i, m') -> grows (length ps) m m'.
Proof.
  unfold new_dec. intros E. bk E as es E1. assert (Q : GetUniqueNode m (MkN p fl (BDec (sort_elems es))) = (i, m')) by congruence.
  apply unique_grows in Q. unfold elements in Q. simpl in Q. rewrite sort_len, (mk_elems_len _ _ _ _ _ E1) in Q. exact Q.
Qed.
Definition gt_grows (gt : @gt_type P) : Prop := forall p fl tm m i tm' m', gt p fl tm m = Ok (i, tm', m') -> grows 1 m m'.
Lemma norm_grows gt : gt_grows gt -> forall f target fl cur tm m i tm' m', norm_loop gt f target fl cur tm m = Ok (i, tm', m') -> grows 1 m m'.
Proof.
  intros HG. induction f as [|f IH]; intros target fl cur tm m i tm' m' E; cbn [norm_loop] in E; [discriminate|].
  bk E as nd E1. destruct (opath_eqb (n_vt nd) target); [injection E as _ _ <-; apply grows_refl|].
  destruct (n_vt nd) as [|[] q]; [discriminate| |];
    bk E as [[t tm2] m2] E2; apply HG in E2; bk E as [nx m3] E3; apply dec_grows in E3; cbn [length] in E3; apply IH in E; eauto using grows_trans.
Qed.
Lemma normalize_grows gt target fl cur tm m i tm' m' : gt_grows gt -> normalize_with gt target fl cur tm m = Ok (i, tm', m') -> grows 1 m m'.
Proof. intros HG E. unfold normalize_with in E. bk E as vt E1. eapply norm_grows; eauto. Qed.
Lemma conform_grows gt l r fl : gt_grows gt -> forall ps ss tm m ps' ss' m', conform_loop gt l r fl ps ss tm m = Ok (ps', ss', m') ->
  grows 1 m m' /\ length ps' = length ps.
Proof.
  intros HG. induction ps as [|p ps IH]; intros ss tm m ps' ss' m' E; cbn [conform_loop] in E.
  - injection E as <- _ <-. split; auto. apply grows_refl.
  - destruct ss as [|s ss]; [discriminate|]. bk E as [[p1 tm1] m1] E1. bk E as [[s1 tm2] m2] E2. bk E as [[ps2 ss2] m3] E3. injection E as <- _ <-.
    apply normalize_grows in E1, E2; auto. apply IH in E3 as [E3 L]. split; [eauto using grows_trans|simpl; congruence].
Qed.
Lemma conformed_grows gt m ps ss ws fl i m' : gt_grows gt -> conformed_with gt m ps ss ws fl = Ok (i, m') -> 1 <= length ps /\ grows (length ps) m m'.
Proof.
  intros HG E. unfold conformed_with in E. bk E as p0 E0. bk E as s0 _. bk E as vp _. bk E as vs _. bk E as [[ps' ss'] m1] E1.
  apply conform_grows in E1 as [E1 L]; auto. apply dec_grows in E. rewrite L in E.
  assert (LP : 1 <= length ps) by (destruct ps; [discriminate|simpl; lia]). split; auto. eapply grows_trans; [eapply grows_le; [exact E1|exact LP]|exact E].
Qed.
Lemma true_fold_grows gt fl L : gt_grows gt -> forall tm m tm' m', foldM (true_step gt fl) L (tm, m) = Ok (tm', m') -> grows 1 m m'.
Proof.
  intros HG. induction L as [|[p t] L IH]; intros tm m tm' m' E; cbn [foldM] in E; [injection E as _ <-; apply grows_refl|].
  bk E as [tm1 m1] E1. apply IH in E. eapply grows_trans; [|exact E]. unfold true_step in E1. destruct t as [v|l r].
  - bk E1 as [i m2] E2. injection E1 as _ <-. eapply top_grows; eauto.
  - destruct (nlookup (vpos (m_vt m) (false :: p)) tm); [|discriminate]. destruct (nlookup (vpos (m_vt m) (true :: p)) tm); [|discriminate].
    bk E1 as [i m2] E2. injection E1 as _ <-. eapply conformed_grows in E2 as [_ E2]; auto.
Qed.
Lemma gt_S f target fl tm (m : mgr) : get_true (S f) target fl tm m =
  match nlookup (vpos (m_vt m) target) tm with
  | Some i => Ok (i, tm, m)
  | None =>
      do t <- get (subtree (m_vt m) target) ;;
      do ser <- SerializeVtree target t ;;
      do (tm1, m1) <- foldM (true_step (get_true f) fl) (rev ser) (tm, m) ;;
      match nlookup (vpos (m_vt m) target) tm1 with
      | Some i => Ok (i, tm1, m1)
      | None => Abort
      end
  end.
Proof. reflexivity. Qed.
Lemma get_true_grows f : gt_grows (get_true f).
Proof.
  induction f as [|f IH]; intros p fl tm m i tm' m' E; [discriminate|]. rewrite gt_S in E.
  destruct (nlookup _ tm); [injection E as _ _ <-; apply grows_refl|]. bk E as t _. bk E as ser _. bk E as [tm1 m1] E1.
  destruct (nlookup _ tm1); [|discriminate]. injection E as _ _ <-. eapply true_fold_grows; eauto.
Qed.
Lemma true_grows p fl m i m' : GetTrueNode p fl m = Ok (i, m') -> grows 1 m m'.
Proof. unfold GetTrueNode. intros E. bk E as [[j tm] m1] E1. injection E as _ <-. eapply get_true_grows; eauto. Qed.
Lemma norm_node_grows target cur fl m i m' : NormalizePsddNode target cur fl m = Ok (i, m') -> grows 1 m m'.
Proof. unfold NormalizePsddNode. intros E. bk E as [[j tm] m1] E1. injection E as _ <-. eapply normalize_grows; eauto. apply get_true_grows. Qed.
Lemma decision_grows m ps ss ws fl i m' : GetConformedPsddDecisionNode m ps ss ws fl = Ok (i, m') -> 1 <= length ps /\ grows (length ps) m m'.
Proof. apply conformed_grows, get_true_grows. Qed.

(** *** Copies *)
Lemma mapM_length {A B} (f : A -> res B) l : forall r, mapM f l = Ok r -> length r = length l.
Proof. induction l as [|a l IH]; intros r E; simpl in E; [injection E as <-; auto|]. bk E as b _. bk E as bs E1. injection E as <-. simpl. f_equal. auto. Qed.
Definition bounded (hs : heap) (k : nat) (L : list nat) : Prop := forall i nd, In i L -> nth_error hs i = Some nd -> elements nd <= k.
Lemma relab_grows hs fl ud m i ws ud' m' k : bounded hs k [i] -> relab_step hs fl (ud, m) i ws = Ok (ud', m') -> grows (Nat.max 1 k) m m'.
Proof.
  intros B E. unfold relab_step, node_of in E. bk E as nd E1. destruct (nth_error hs i) as [nd'|] eqn:En; [|discriminate]. injection E1 as ->.
  pose proof (B i nd (or_introl eq_refl) En) as LE. unfold elements in LE. destruct (n_body nd) as [l|v a b|es].
  - bk E as [j m1] E1. injection E as _ <-. apply literal_grows in E1. eapply grows_le; [exact E1|lia].
  - destruct ws as [|w1 [|w2 [|w3 ws]]]; try discriminate. bk E as [j m1] E1. injection E as _ <-. apply top_grows in E1. eapply grows_le; [exact E1|lia].
  - bk E as ps E1. bk E as ss E2. bk E as [j m1] E3. injection E as _ <-. apply decision_grows in E3 as [_ E3].
    rewrite (mapM_length _ _ _ E1) in E3. eapply grows_le; [exact E3|lia].
Qed.
Lemma pass_grows {ST} hs fl k (F : ST -> nat -> res ST) (um : ST -> udata * mgr) :
  (forall st i st', F st i = Ok st' -> exists ws, relab_step hs fl (um st) i ws = Ok (um st')) ->
  forall L st st', bounded hs k L -> foldM F L st = Ok st' -> grows (Nat.max 1 k) (snd (um st)) (snd (um st')).
Proof.
  intros HF. induction L as [|i L IH]; intros st st' B E; cbn [foldM] in E; [injection E as <-; apply grows_refl|].
  bk E as st1 E1. apply IH in E; [|intros j nd I; apply B; right; auto]. eapply grows_trans; [|exact E]. apply HF in E1 as (ws & E1).
  destruct (um st) as [u0 m0]. destruct (um st1) as [u1 m1]. eapply relab_grows; [|exact E1]. intros j nd [<-|[]]. apply B. left; auto.
Qed.
Lemma bounded_rev hs k L : bounded hs k L -> bounded hs k (rev L).
Proof. intros B i nd I. apply B. apply in_rev. auto. Qed.
Theorem learn_grows hs ud dc root ex n alpha fl m r ud' dc' m' L k : SerializePsddNodes hs [root] = Ok L -> bounded hs k L ->
  LearnPsddParameters hs ud dc root ex n alpha fl m = Ok (r, ud', dc', m') -> grows (Nat.max 1 k) m m'.
Proof.
  intros SR B E. unfold LearnPsddParameters in E. rewrite SR in E. cbn [bind] in E. bk E as dc1 _. bk E as [ud1 m1] E1. bk E as r1 E2. injection E as _ _ _ <-.
  apply (pass_grows hs fl k (learn_step hs dc1 alpha fl) (fun x => x)) in E1; auto using bounded_rev.
  intros st i st' Q. unfold learn_step in Q. bk Q as nd _. bk Q as ws _. eauto.
Qed.
Theorem sample_grows (G : dops P) near1 hs ud roots fl us m rs us' ud' m' L k : SerializePsddNodes hs roots = Ok L -> bounded hs k L ->
  SampleParametersForMultiplePsdds G near1 hs ud roots fl us m = Ok (rs, us', ud', m') -> grows (Nat.max 1 k) m m'.
Proof.
  intros SR B E. unfold SampleParametersForMultiplePsdds in E. rewrite SR in E. cbn [bind] in E. bk E as [s2 [ud2 m2]] E3. bk E as rs1 E4. injection E as _ _ _ <-.
  apply (pass_grows hs fl k (sample_step G near1 hs fl) snd) in E3; auto using bounded_rev.
  intros st i st' Q. unfold sample_step in Q. bk Q as nd _. bk Q as [ws s3] _. bk Q as um Q2. injection Q as <-. eauto.
Qed.
Theorem load_grows hs ud target root fl m r ud' m' L k : SerializePsddNodes hs [root] = Ok L -> bounded hs k L ->
  LoadPsddNode hs ud target root fl m = Ok (r, ud', m') -> grows (Nat.max 1 k) m m'.
Proof.
  intros SR B E. unfold LoadPsddNode in E. rewrite SR in E. cbn [bind] in E.
  bk E as [ud1 m1] E1. bk E as r1 E2. bk E as [j m2] E3. injection E as _ _ <-. apply norm_node_grows in E3.
  apply (pass_grows hs fl k (load_step hs fl) (fun x => x)) in E1; auto using bounded_rev.
  - eapply grows_trans; [exact E1|]. eapply grows_le; [exact E3|lia].
  - intros [u0 m0] i st' Q. unfold load_step in Q. unfold relab_step, node_of. destruct (nth_error hs i) as [nd|]; [|discriminate]. cbn [get bind] in *.
    destruct (n_body nd) as [l|v a b|es]; [exists []|exists [a; b]|exists (map e_param es)]; auto.
Qed.

(** *** From SDDs *)
Lemma from_elems_grows sd nm vt fl es : forall ps ss tm m ps' ss' tm' m', foldM (from_elem sd nm vt fl) es (ps, ss, tm, m) = Ok (ps', ss', tm', m') ->
  grows 1 m m' /\ length ps' <= length ps + length es.
Proof.
  induction es as [|e es IH]; intros ps ss tm m ps' ss' tm' m' E; cbn [foldM] in E.
  - injection E as <- _ _ <-. split; [apply grows_refl|simpl; lia].
  - bk E as [[[ps1 ss1] tm1] m1] E1. apply IH in E as [G L].
    assert (X : grows 1 m m1 /\ length ps1 <= S (length ps)); [|destruct X as [X1 X2]; split; [eauto using grows_trans|simpl; lia]].
    unfold from_elem in E1. destruct (nlookup (fst e) nm) as [pp|]; [|discriminate]. bk E1 as sn _.
    assert (OTHER : match nlookup (snd e) nm with
          | None => Abort
          | Some sp =>
              do (x, m1) <- normalize_with (get_true gt_fuel) (vkid (m_vt m) vt false) fl pp tm m ;;
              let '(p1, tm1) := x in
              do (y, m2) <- normalize_with (get_true gt_fuel) (vkid (m_vt m) vt true) fl sp tm1 m1 ;;
              let '(s1, tm2) := y in
              Ok (ps ++ [p1], ss ++ [s1], tm2, m2)
          end = Ok (ps1, ss1, tm1, m1) -> grows 1 m m1 /\ length ps1 <= S (length ps)).
    { intros Q. destruct (nlookup (snd e) nm) as [sp|]; [|discriminate]. bk Q as [[p2 tm2] m2] Q1. bk Q as [[s3 tm3] m3] Q2. injection Q as <- _ _ <-.
      apply normalize_grows in Q1, Q2; auto using get_true_grows. split; [eauto using grows_trans|]. rewrite app_length. simpl. lia. }
    destruct (s_body sn); auto.
    + bk E1 as [[p2 tm2] m2] Q1. bk E1 as rt _. bk E1 as [[s3 tm3] m3] Q2. injection E1 as <- _ _ <-.
      apply normalize_grows in Q1; auto using get_true_grows. apply get_true_grows in Q2. split; [eauto using grows_trans|]. rewrite app_length. simpl. lia.
    + injection E1 as <- _ _ <-. split; [apply grows_refl|lia].
Qed.
Definition sbounded (sd : sdd) (k : nat) (L : list nat) : Prop := forall n sn es, In n L -> sd n = Some sn -> s_body sn = SDec es -> length es <= k.
Lemma from_steps_grows sd d fl k L : sbounded sd k L -> forall nm tm m nm' tm' m', foldM (from_step sd d fl) L (nm, tm, m) = Ok (nm', tm', m') -> grows (Nat.max 1 k) m m'.
Proof.
  intros B. induction L as [|n L IH]; intros nm tm m nm' tm' m' E; cbn [foldM] in E; [injection E as _ _ <-; apply grows_refl|].
  bk E as [[nm1 tm1] m1] E1. apply IH in E; [|intros j sn es I; apply B; right; auto]. eapply grows_trans; [|exact E]. clear E IH.
  unfold from_step in E1. bk E1 as sn E2. unfold sget in E2. destruct (sd n) as [sn'|] eqn:En; [|discriminate]. injection E2 as ->.
  destruct (s_body sn) as [| |l|es] eqn:Bs; try (injection E1 as _ _ <-; apply grows_refl).
  - bk E1 as vt _. destruct (subtree (m_vt m) vt) as [[v|]|]; try discriminate. destruct (GetUniqueNode m _) as [i m2] eqn:Q. injection E1 as _ _ <-.
    apply unique_grows in Q. eapply grows_le; [exact Q|change (1 <= Nat.max 1 k); lia].
  - pose proof (B n sn es (or_introl eq_refl) En Bs) as LE. bk E1 as vt _. bk E1 as [[[ps ss] tm2] m2] E2. bk E1 as u _. bk E1 as [i m3] E3. injection E1 as _ _ <-.
    apply from_elems_grows in E2 as [G L2]. apply dec_grows in E3. simpl in L2. eapply grows_trans; [eapply grows_le; [exact G|lia]|eapply grows_le; [exact E3|lia]].
Qed.
Theorem from_sdd_grows sd order root svt fl target d m r d' m' k : sbounded sd k order ->
  FromSdd sd order root svt fl target d m = Ok (r, d', m') -> grows (Nat.max 1 k) m m'.
Proof.
  intros B E. unfold FromSdd in E. bk E as sn _.
  assert (OTHER : (do tp <- get target ;;
      do pt <- get (subtree (m_vt m) tp) ;;
      do pser <- SerializeVtree tp pt ;;
      do sser <- SerializeVtree [] svt ;;
      do d1 <- Tag d sser pser ;;
      do (x, m1) <- foldM (from_step sd d1 fl) order ([], [], m) ;;
      let '(nm, tm) := x in
      match nlookup root nm with
      | None => Abort
      | Some i =>
          do (y, m2) <- normalize_with (get_true gt_fuel) (Some tp) fl i tm m1 ;;
          Ok (Some (fst y), fold_left (fun d x => set_pdata d (fst x) None) sser d1, m2)
      end) = Ok (r, d', m') -> grows (Nat.max 1 k) m m').
  { intros Q. bk Q as tp _. bk Q as pt _. bk Q as pser _. bk Q as sser _. bk Q as d1 _. bk Q as [[nm tm] m1] Q1. destruct (nlookup root nm); [|discriminate].
    bk Q as [[y tm2] m2] Q2. injection Q as _ _ <-. apply from_steps_grows with (k := k) in Q1; auto. apply normalize_grows in Q2; auto using get_true_grows.
    eapply grows_trans; [exact Q1|]. eapply grows_le; [exact Q2|lia]. }
  destruct (s_body sn); auto.
  - bk E as tp _. bk E as [i m1] E1. injection E as _ _ <-. apply true_grows in E1. eapply grows_le; [exact E1|lia].
  - injection E as _ _ <-. apply grows_refl.
Qed.

(** *** Factors *)
Lemma term_grows v a b m r z m' : term_node v a b m = Ok (r, z, m') -> grows 2 m m'.
Proof.
  unfold term_node. intros E.
  destruct (peq (padd a b) pzero); [injection E as _ _ <-; apply grows_refl|].
  destruct (peq a pzero); [|destruct (peq b pzero)]; bk E as [i m1] E1; injection E as _ _ <-.
  - apply literal_grows in E1. eapply grows_le; [exact E1|lia].
  - apply literal_grows in E1. eapply grows_le; [exact E1|lia].
  - apply top_grows in E1. eapply grows_le; [exact E1|lia].
Qed.
Lemma cond_grows v a b sp sn m r z m' : cond_node v a b sp sn m = Ok (r, z, m') -> grows 2 m m'.
Proof.
  unfold cond_node. intros E.
  destruct (peq (padd a b) pzero); [injection E as _ _ <-; apply grows_refl|].
  destruct (peq a pzero); [|destruct (peq b pzero)].
  - bk E as [i m1] E1. bk E as s _. bk E as [j m2] E2. injection E as _ _ <-. apply literal_grows in E1. apply decision_grows in E2 as [_ E2].
    eapply grows_trans; eapply grows_le; [exact E1|lia|exact E2|simpl; lia].
  - bk E as [i m1] E1. bk E as s _. bk E as [j m2] E2. injection E as _ _ <-. apply literal_grows in E1. apply decision_grows in E2 as [_ E2].
    eapply grows_trans; eapply grows_le; [exact E1|lia|exact E2|simpl; lia].
  - bk E as [i m1] E1. bk E as [i2 m2] E2. bk E as s1 _. bk E as s2 _. bk E as [j m3] E3. injection E as _ _ <-.
    apply literal_grows in E1, E2. apply decision_grows in E3 as [_ E3].
    eapply grows_trans; [eapply grows_le; [eapply grows_trans; [exact E1|exact E2]|lia]|exact E3].
Qed.
Theorem factor_grows ord F m r z m' : compile_factor ord F m = Ok (r, z, m') -> grows 2 m m'.
Proof.
  unfold compile_factor. intros E. bk E as ser _. bk E as u _. destruct (combine _ _) as [|[v l] rest]; [discriminate|]. bk E as loc _.
  bk E as [[nc zc] m1] E1. bk E as [[[k nc2] zc2] m2] E2. bk E as u2 _. bk E as r1 _. bk E as z1 _. bk E as i _. bk E as [j m3] E3. injection E as _ _ <-.
  apply norm_node_grows in E3. cbn [fst snd] in E2.
  assert (G1 : grows 2 m m1).
  { clear - E1. revert E1. generalize (seq 0 (length (f_table F))). intros L. generalize (@nil (N * option nat)), (@nil (N * P)). revert m nc zc m1.
    induction L as [|x L IH]; intros m nc zc m1 nc0 zc0 E; cbn [foldM] in E; [injection E as _ _ <-; apply grows_refl|].
    bk E as [[nc1 zc1] m2] E1. apply IH in E. eapply grows_trans; [|exact E]. unfold term_step in E1. destruct (Nlookup _ nc0).
    - injection E1 as _ _ <-. apply grows_refl.
    - bk E1 as a _. bk E1 as b _. bk E1 as [[r z] m3] E2. injection E1 as _ _ <-. eapply term_grows; eauto. }
  assert (G2 : grows 2 m1 m2).
  { clear - E2. set (k0 := 0) in E2. clearbody k0. revert k0 nc zc m1 E2. induction rest as [|[w lc] rest IH]; intros k0 nc zc m1 E; cbn [foldM] in E; [injection E as _ _ _ <-; apply grows_refl|].
    bk E as [[[k1 nc1] zc1] m3] E1. apply IH in E. eapply grows_trans; [|exact E]. unfold level_step in E1. bk E1 as loc _. bk E1 as [[nc4 zc4] m4] E2. injection E1 as _ _ _ <-.
    clear - E2. revert E2. generalize (ord k0 (map fst nc)). intros L. generalize (@nil (N * option nat)), (@nil (N * P)). revert m1 nc4 zc4 m4.
    induction L as [|x L IH]; intros m nc' zc' m1 nc0 zc0 E; cbn [foldM] in E; [injection E as _ _ <-; apply grows_refl|].
    bk E as [[nc1 zc1] m2] E1. apply IH in E. eapply grows_trans; [|exact E]. unfold cond_step in E1. destruct (Nlookup _ nc0).
    - injection E1 as _ _ <-. apply grows_refl.
    - bk E1 as a _. bk E1 as b _. bk E1 as sn _. bk E1 as sp _. bk E1 as [[r z] m3] E2. injection E1 as _ _ <-. eapply cond_grows; eauto. }
  eapply grows_trans; [exact G1|]. eapply grows_trans; [exact G2|]. eapply grows_le; [exact E3|lia].
Qed.
End Narrow.

(** *** Products: at most as many elements as pairs of elements *)
From Verif Require Import VtreeProofs HeapProofs SerProofs OrderProofs.
Section NarrowMul.
Context {P : pops}.
Notation heap := (heap P). Notation mgr := (mgr P). Notation node := (node P).
Context (root : vtree) (h0 : heap) (H0 : heap_ok root h0) (ka kb : nat).
Definition below (k a : nat) : Prop := forall i nd, reach h0 a i -> nth_error h0 i = Some nd -> elements nd <= k.
Definition on_base (m : mgr) : Prop := exists l, m_heap m = h0 ++ l.
Lemma on_base_grows k m m' : on_base m -> grows k m m' -> on_base m'.
Proof. intros (l & E) (_ & l' & E' & _). exists (l ++ l'). rewrite E', E, app_assoc. reflexivity. Qed.
Definition rec_grows (rec : nat -> nat -> mgr * @mcache P -> res (@mres P * (mgr * @mcache P))) : Prop :=
  forall a b m c r m' c', on_base m -> a < length h0 -> b < length h0 -> below ka a -> below kb b ->
  rec a b (m, c) = Ok (r, (m', c')) -> grows (Nat.max 1 (ka * kb)) m m'.
Lemma pairs_grows rec L : rec_grows rec ->
  (forall x y, In (x, y) L -> (e_prime x < length h0 /\ e_sub x < length h0 /\ below ka (e_prime x) /\ below ka (e_sub x)) /\
     (e_prime y < length h0 /\ e_sub y < length h0 /\ below kb (e_prime y) /\ below kb (e_sub y))) ->
  forall acc part m c acc' part' m' c', on_base m -> foldM (mul_pair rec) L (acc, part, (m, c)) = Ok (acc', part', (m', c')) ->
  grows (Nat.max 1 (ka * kb)) m m' /\ length acc' <= length acc + length L.
Proof.
  intros HR. induction L as [|[x y] L IH]; intros HL acc part m c acc' part' m' c' B E; cbn [foldM] in E.
  - injection E as <- <- <- <-. split; [apply grows_refl|simpl; lia].
  - bk E as [[acc1 part1] [m1 c1]] E1. destruct (HL x y (or_introl eq_refl)) as ((X1 & X2 & X3 & X4) & (Y1 & Y2 & Y3 & Y4)).
    assert (G : grows (Nat.max 1 (ka * kb)) m m1 /\ length acc1 <= 1 + length acc).
    { unfold mul_pair in E1. bk E1 as [pr [m2 c2]] E2. apply HR in E2; auto. pose proof (on_base_grows _ _ _ B E2) as B2. destruct (fst pr).
      - bk E1 as [sr [m3 c3]] E3. apply HR in E3; auto. pose proof (grows_trans _ _ _ _ E2 E3) as G.
        destruct (fst sr); injection E1 as <- <- <- <-; split; auto. rewrite app_length. simpl. lia.
      - injection E1 as <- <- <- <-. split; auto. }
    destruct G as [G1 G2]. apply IH in E as [E L2]; [|intros x0 y0 I; apply HL; right; auto|eapply on_base_grows; eauto].
    split; [eapply grows_trans; eauto|simpl; lia].
Qed.
Lemma mul_grows fl fuel : rec_grows (multiply_with_cache fuel fl).
Proof.
  induction fuel as [|f IH]; intros a b m c r m' c' B LA LB BA BB E; cbn [multiply_with_cache] in E; [discriminate|].
  bk E as pos _. destruct (alookup _ _ c). { injection E as _ <- _. apply grows_refl. }
  bk E as na Ea. bk E as nb Eb. bk E as u _.
  destruct (nth_error (m_heap m) a) as [na'|] eqn:Na; [|discriminate]. injection Ea as ->. destruct (nth_error (m_heap m) b) as [nb'|] eqn:Nb; [|discriminate]. injection Eb as ->.
  destruct B as (l & EB). rewrite EB, nth_error_app1 in Na, Nb by auto.
  pose proof (BA a na (reach_refl _ _) Na) as WA. pose proof (BB b nb (reach_refl _ _) Nb) as WB. unfold elements in WA, WB.
  assert (ONE : forall m2, grows 1 m m2 -> grows (Nat.max 1 (ka * kb)) m m2) by (intros m2 G; eapply grows_le; [exact G|lia]).
  destruct (n_body na) as [la|va ta fa|ea] eqn:Ba; destruct (n_body nb) as [lb|vb tb fb|eb] eqn:Bb; try discriminate.
  - bk E as u1 _. destruct (Z.eqb la lb).
    + bk E as [i m1] E2. bk E as c2 _. injection E as _ <- _. apply ONE. eapply literal_grows; eauto.
    + bk E as c2 _. injection E as _ <- _. apply grows_refl.
  - bk E as u1 _. bk E as [i m1] E2. bk E as c2 _. injection E as _ <- _. apply ONE. eapply literal_grows; eauto.
  - bk E as u1 _. bk E as [i m1] E2. bk E as c2 _. injection E as _ <- _. apply ONE. eapply literal_grows; eauto.
  - bk E as u1 _. bk E as [i m1] E2. bk E as nd _. destruct (n_body nd); try discriminate. bk E as u2 _. bk E as u3 _. bk E as c2 _. injection E as _ <- _.
    apply ONE. eapply top_grows; eauto.
  - bk E as [[acc part] [m1 c1]] E2.
    assert (KIDS : forall k i nd es e, nth_error h0 i = Some nd -> n_body nd = BDec es -> In e es -> below k i ->
       e_prime e < length h0 /\ e_sub e < length h0 /\ below k (e_prime e) /\ below k (e_sub e)).
    { intros k i nd es e Ei Bi I BI. pose proof (H0 _ _ Ei) as O. unfold node_ok in O. rewrite Bi in O. destruct O as (_ & _ & F). rewrite Forall_forall in F.
      destruct (F e I) as (P1 & P2 & _). assert (i < length h0) by (apply nth_error_Some; congruence). split; [lia|]. split; [lia|].
      split; intros j nj R; apply BI; (eapply reach_step; [exact Ei| |exact R]); unfold children; rewrite Bi; apply in_app_iff; auto using in_map. }
    apply pairs_grows in E2 as [G LN]; auto.
    2: { intros x y I. apply in_prod_iff in I as [I1 I2]. split; [apply (KIDS ka a na ea x)|apply (KIDS kb b nb eb y)]; auto. }
    2: { exists l. auto. }
    rewrite prod_length in LN. simpl in LN. destruct acc as [|e acc].
    + bk E as c2 _. injection E as _ <- _. exact G.
    + bk E as u1 _. bk E as [i m2] E3. bk E as c2 _. injection E as _ <- _. apply decision_grows in E3 as [_ E3]. rewrite map_length in E3.
      eapply grows_trans; [exact G|]. eapply grows_le; [exact E3|]. assert (length ea * length eb <= ka * kb) by (apply Nat.mul_le_mono; auto). lia.
Qed.
End NarrowMul.
Section NarrowTop.
Context {P : pops} (Hr : forall a : P, peq a a = true) (Hi : forall a : P, plt a a = false).
Theorem product_grows (m : mgr P) a b fl r m' ka kb : Wf m -> a < length (m_heap m) -> b < length (m_heap m) -> below (m_heap m) ka a -> below (m_heap m) kb b ->
  Multiply m a b fl = Ok (r, m') -> grows (Nat.max 1 (ka * kb)) m m'.
Proof.
  intros W LA LB BA BB E. unfold Multiply in E. bk E as [r1 [m1 c1]] E1. injection E as _ <-.
  apply (mul_grows (m_vt m) (m_heap m) (wf_heap _ W) ka kb fl) in E1; auto. exists []. rewrite app_nil_r. reflexivity.
Qed.
(** A step of a history that hands over at most [k] elements at a time and multiplies nothing. *)
Definition thin (k : nat) (o : @op P) : Prop :=
  match o with
  | ODec ps _ _ _ => length ps <= k
  | OLoad hs _ _ _ _ => forall nd, In nd hs -> elements nd <= k
  | OMul _ _ _ => False
  | _ => True
  end.
Lemma thin_step k m o m' : 1 <= k -> thin k o -> step m o = Ok m' -> grows k m m'.
Proof.
  intros K T E. assert (ONE : forall m2, grows 1 m m2 -> grows k m m2) by (intros m2 G; eapply grows_le; [exact G|lia]).
  destruct o; cbn [step thin] in *.
  - bk E as [i0 m1] E1. injection E as <-. apply ONE. eapply top_grows; eauto.
  - bk E as [i0 m1] E1. injection E as <-. apply ONE. eapply literal_grows; eauto.
  - bk E as [i0 m1] E1. injection E as <-. apply decision_grows in E1 as [_ E1]. eapply grows_le; [exact E1|auto].
  - bk E as [i0 m1] E1. injection E as <-. apply ONE. eapply true_grows; eauto.
  - bk E as [i0 m1] E1. injection E as <-. apply ONE. eapply norm_node_grows; eauto.
  - bk E as [[i0 ud1] m1] E1. injection E as <-. pose proof E1 as E2. unfold LoadPsddNode in E2. bk E2 as L E3. clear E2.
    eapply load_grows with (k := k) in E1; eauto. { eapply grows_le; [exact E1|lia]. } intros j nd _ Q. apply T. eapply nth_error_In; eauto.
  - destruct T.
  - unfold DeleteUnusedPsddNodes in E. bk E as cov _. injection E as <-. split; auto. exists []. rewrite app_nil_r. auto.
  - injection E as <-. split; auto. exists []. rewrite app_nil_r. auto.
Qed.
Theorem thin_history k ops : 1 <= k -> forall m m' : mgr P, Forall (thin k) ops -> runs m ops = Ok m' -> grows k m m'.
Proof.
  intros K. induction ops as [|o ops IH]; intros m m' F E; unfold runs in *; cbn [foldM] in E; [injection E as <-; apply grows_refl|].
  bk E as m1 E1. inversion F; subst. eapply grows_trans; [eapply thin_step; eauto|]. apply IH; auto.
Qed.
End NarrowTop.
