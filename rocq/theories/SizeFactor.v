(** How many nodes it takes to compile a factor (C96). *)
From Coq Require Import Reals.
From Verif Require Import Base Param Vtree VtreeProofs Heap Manager HeapProofs SerProofs OrderProofs CanonProofs Pgm SizeProofs SizeNet.
Local Open Scope nat_scope.

Section SizeFactor.
Context {P : pops}.
Notation heap := (heap P). Notation mgr := (mgr P). Notation node := (node P).
Context (Hr : forall a : P, peq a a = true) (Hi : forall a : P, plt a a = false).

Lemma unique_more (m : mgr) nd i m' : GetUniqueNode m nd = (i, m') -> adds m m' 1 (width nd).
Proof.
  unfold GetUniqueNode. destruct (find _ _); intros E; injection E as <- <-.
  - eapply adds_le; [apply adds_refl|lia|lia].
  - exists [nd]. cbn. repeat split; lia.
Qed.
Lemma literal_more (m : mgr) l fl i m' : GetPsddLiteralNode m l fl = Ok (i, m') -> adds m m' 1 1.
Proof.
  unfold GetPsddLiteralNode. destruct (leaf_path _ _) as [q|]; [|discriminate]. cbn [get bind]. intros E. injection E as E. apply unique_more in E. exact E.
Qed.
Lemma top_more (m : mgr) v fl a b i m' : GetPsddTopNode m v fl a b = Ok (i, m') -> adds m m' 1 1.
Proof.
  unfold GetPsddTopNode. destruct (leaf_path _ _) as [q|]; [|discriminate]. cbn [get bind]. intros E. injection E as E. apply unique_more in E. exact E.
Qed.
Lemma mk_elems_len (ws : list P) : forall ps i ss es, mk_elems ws i ps ss = Ok es -> length es = length ps.
Proof.
  induction ps as [|p ps IH]; intros i [|s ss] es E; cbn [mk_elems] in E; try discriminate; [injection E as <-; auto|].
  bk E as w _. bk E as es' E1. injection E as <-. cbn. f_equal. eauto.
Qed.
Lemma new_dec_more (m : mgr) p fl ps ss ws i m' : new_dec m p fl ps ss ws = Ok (i, m') -> adds m m' 1 (length ps).
Proof.
  unfold new_dec. intros E. bk E as es E1. injection E as E. apply unique_more in E. unfold width in E. cbn [n_body] in E.
  rewrite (Permutation_length (sort_elems_perm es)), (mk_elems_len _ _ _ _ _ E1) in E. exact E.
Qed.
Lemma get_true_more n p s fl tm (m : mgr) i tm' m' : Wf m -> tm_wf tm m -> subtree (m_vt m) p = Some s -> get_true n p fl tm m = Ok (i, tm', m') -> adds m m' (vsize s) (vsize s).
Proof.
  intros W T S E. destruct n as [|n]; [discriminate|]. rewrite get_true_S in E. destruct (nlookup (vpos (m_vt m) p) tm).
  { injection E as _ _ <-. eapply adds_le; [apply adds_refl|lia|lia]. }
  rewrite S in E. cbn [get bind] in E. bk E as ser E2. bk E as [tm1 m2] E3.
  destruct (nlookup (vpos (m_vt m) p) tm1); [|discriminate]. injection E as _ _ <-.
  assert (LN : length (rev ser) = vsize s).
  { destruct (serialize_vtree_spec p s) as (L & E4 & PM & _). assert (L = ser) as -> by congruence. rewrite rev_length, (Permutation_length PM).
    clear. revert p. induction s as [v|l IHl r IHr]; intros p; simpl; auto. rewrite app_length, IHl, IHr. lia. }
  rewrite <- LN. eapply (true_fold_adds Hr Hi); [exact W|exact T| |exact E3]. apply Forall_rev. eapply ser_subtrees; eauto.
Qed.
(** Normalizing adds one node for every vtree node that is in the target and not below where the PSDD was. *)
Lemma norm_more n : forall fuel t fl cur tm (m : mgr) i tm' m' q sc st, Wf m -> tm_wf tm m -> vt_of (m_heap m) cur = Some q -> subtree (m_vt m) q = Some sc -> subtree (m_vt m) t = Some st ->
  norm_loop (get_true n) fuel (Some t) fl cur tm m = Ok (i, tm', m') -> exists d, adds m m' d d /\ d + vsize sc <= vsize st.
Proof.
  induction fuel as [|f IH]; intros t fl cur tm m i tm' m' q sc st W T V Sc St E; cbn [norm_loop] in E; [discriminate|].
  unfold vt_of in V. destruct (nth_error (m_heap m) cur) as [nd|] eqn:En; [|discriminate]. cbn [get bind option_map] in *. injection V as V. rewrite V in E.
  destruct (opath_eqb q (Some t)) eqn:Et.
  - injection E as _ _ <-. cbn in Et. apply path_eqb_true in Et. subst t. exists 0. split; [apply adds_refl|]. assert (sc = st) by congruence. subst. lia.
  - assert (Vc : vt_of (m_heap m) cur = Some q) by (unfold vt_of; rewrite En; cbn; congruence). clear Et. destruct q as [|b parent]; [discriminate|].
    assert (exists l r, subtree (m_vt m) parent = Some (VNode l r)) as (l & r & HV) by (simpl in Sc; destruct (subtree (m_vt m) parent) as [[v|l r]|]; try discriminate; eauto).
    assert (SB : forall b', subtree (m_vt m) (b' :: parent) = Some (if b' then r else l)) by (intros b'; simpl; rewrite HV; destruct b'; reflexivity).
    assert (sc = if b then r else l) as -> by (specialize (SB b); congruence).
    destruct b.
    + bk E as [[x tm2] m2] Eg. destruct (get_true_wf Hr Hi n _ _ _ _ _ _ _ W T (ex_intro _ _ (SB false)) Eg) as (W2 & X2 & T2 & V2).
      pose proof (get_true_more n _ _ _ _ _ _ _ _ W T (SB false) Eg) as A2. cbn iota in A2. bk E as [next m3] Ed. pose proof (new_dec_more _ _ _ _ _ _ _ _ Ed) as A3.
      destruct (new_dec_wf Hr Hi m2 parent fl [x] [cur] [pone] next m3 W2) as (W3 & X3 & _ & V3 & _); auto.
      { exists l, r. rewrite (me_vt _ _ _ X2). exact HV. } { discriminate. } { constructor; auto. eapply mext_vt; eauto. }
      destruct (IH t fl next tm2 m3 i tm' m' parent (VNode l r) st W3 (tm_wf_ext _ _ _ _ X3 T2) V3) as (d & A & D); auto.
      { rewrite (me_vt _ _ _ X3), (me_vt _ _ _ X2). exact HV. } { rewrite (me_vt _ _ _ X3), (me_vt _ _ _ X2). exact St. }
      exists (vsize l + (1 + d)). split; [eapply adds_trans; [exact A2|]; eapply adds_trans; [exact A3|exact A]|]. simpl in D. lia.
    + bk E as [[x tm2] m2] Eg. destruct (get_true_wf Hr Hi n _ _ _ _ _ _ _ W T (ex_intro _ _ (SB true)) Eg) as (W2 & X2 & T2 & V2).
      pose proof (get_true_more n _ _ _ _ _ _ _ _ W T (SB true) Eg) as A2. cbn iota in A2. bk E as [next m3] Ed. pose proof (new_dec_more _ _ _ _ _ _ _ _ Ed) as A3.
      destruct (new_dec_wf Hr Hi m2 parent fl [cur] [x] [pone] next m3 W2) as (W3 & X3 & _ & V3 & _); auto.
      { exists l, r. rewrite (me_vt _ _ _ X2). exact HV. } { discriminate. } { constructor; auto. eapply mext_vt; eauto. }
      destruct (IH t fl next tm2 m3 i tm' m' parent (VNode l r) st W3 (tm_wf_ext _ _ _ _ X3 T2) V3) as (d & A & D); auto.
      { rewrite (me_vt _ _ _ X3), (me_vt _ _ _ X2). exact HV. } { rewrite (me_vt _ _ _ X3), (me_vt _ _ _ X2). exact St. }
      exists (vsize r + (1 + d)). split; [eapply adds_trans; [exact A2|]; eapply adds_trans; [exact A3|exact A]|]. simpl in D. lia.
Qed.
Lemma normalize_more n t fl cur tm (m : mgr) i tm' m' st : Wf m -> tm_wf tm m -> subtree (m_vt m) t = Some st ->
  normalize_with (get_true n) (Some t) fl cur tm m = Ok (i, tm', m') -> adds m m' (vsize st) (vsize st).
Proof.
  intros W T S E. unfold normalize_with in E. destruct (vt_of (m_heap m) cur) as [q|] eqn:V; [|discriminate]. cbn [get bind] in E.
  assert (exists sc, subtree (m_vt m) q = Some sc) as (sc & Sc).
  { unfold vt_of in V. destruct (nth_error (m_heap m) cur) as [nd|] eqn:En; [|discriminate]. injection V as <-. eapply node_ok_valid. apply (wf_heap _ W _ _ En). }
  destruct (norm_more n _ _ _ _ _ _ _ _ _ _ _ _ W T V Sc S E) as (d & A & D). eapply adds_le; [exact A|lia|lia].
Qed.
Lemma conform_more n lp rp fl : forall primes subs tm (m : mgr) ps ss m' l r, Wf m -> tm_wf tm m -> subtree (m_vt m) lp = Some l -> subtree (m_vt m) rp = Some r ->
  conform_loop (get_true n) (Some lp) (Some rp) fl primes subs tm m = Ok (ps, ss, m') ->
  adds m m' (length primes * (vsize l + vsize r)) (length primes * (vsize l + vsize r)) /\ length ps = length primes.
Proof.
  induction primes as [|p primes IH]; intros subs tm m ps ss m' l r W T L R E; cbn [conform_loop] in E.
  - injection E as <- <- <-. split; auto. apply adds_refl.
  - destruct subs as [|s subs]; [discriminate|]. bk E as [[p' tm1] m1] E1. bk E as [[s' tm2] m2] E2. bk E as [[ps' ss'] m3] E3. injection E as <- <- <-.
    destruct (normalize_with_wf Hr Hi _ (get_true_wf Hr Hi n) _ _ _ _ _ _ _ _ W T E1) as (W1 & X1 & T1 & _).
    destruct (normalize_with_wf Hr Hi _ (get_true_wf Hr Hi n) _ _ _ _ _ _ _ _ W1 T1 E2) as (W2 & X2 & T2 & _).
    pose proof (normalize_more n _ _ _ _ _ _ _ _ _ W T L E1) as A1. assert (R1 : subtree (m_vt m1) rp = Some r) by (rewrite (me_vt _ _ _ X1); auto).
    pose proof (normalize_more n _ _ _ _ _ _ _ _ _ W1 T1 R1 E2) as A2.
    destruct (IH subs tm2 m2 ps' ss' m3 l r W2 T2) as [A3 Q]; auto; [rewrite (me_vt _ _ _ X2), (me_vt _ _ _ X1); auto..|].
    split; [|cbn; auto]. eapply adds_le; [eapply adds_trans; [exact A1|eapply adds_trans; [exact A2|exact A3]]|cbn [length]; lia|cbn [length]; lia].
Qed.
Lemma subtree_size root : forall p s, subtree root p = Some s -> vsize s <= vsize root.
Proof.
  induction p as [|b p IH]; intros s E; simpl in E; [injection E as <-; auto|]. destruct (subtree root p) as [[v|l r]|]; try discriminate. specialize (IH _ eq_refl). simpl in IH.
  destruct b; injection E as <-; lia.
Qed.
Lemma conformed_more (m : mgr) primes subs ws fl i m' : Wf m -> GetConformedPsddDecisionNode m primes subs ws fl = Ok (i, m') ->
  adds m m' (length primes * vsize (m_vt m)) (length primes * vsize (m_vt m)).
Proof.
  intros W E. unfold GetConformedPsddDecisionNode, conformed_with in E. bk E as p0 Ep. bk E as s0 _. bk E as vp _. bk E as vs _. bk E as [[ps ss] m1] El.
  assert (LP : 1 <= length primes) by (destruct primes; [discriminate|cbn; lia]).
  destruct (subtree (m_vt m) (vlca vp vs)) as [[v|l r]|] eqn:S.
  - exfalso. destruct (conform_loop_wf Hr Hi _ (get_true_wf Hr Hi gt_fuel) _ _ _ _ _ _ _ _ _ _ W (tm_wf_nil _) El) as (_ & _ & N & _ & F & _).
    destruct ps as [|x ps]; [cbn in N; lia|]. inversion F as [|? ? (q & Q & _) _]; subst. unfold vkid in Q. rewrite S in Q. discriminate.
  - assert (VK : forall b, vkid (m_vt m) (vlca vp vs) b = Some (b :: vlca vp vs)) by (intros b; unfold vkid; rewrite S; auto). rewrite !VK in El.
    destruct (conform_more gt_fuel (false :: vlca vp vs) (true :: vlca vp vs) fl primes subs [] m ps ss m1 l r W (tm_wf_nil _)) as [A Q]; auto; [simpl; rewrite S; reflexivity..|].
    pose proof (new_dec_more _ _ _ _ _ _ _ _ E) as A2. pose proof (subtree_size _ _ _ S) as LE. simpl in LE.
    eapply adds_le; [eapply adds_trans; [exact A|exact A2]|nia|rewrite Q; nia].
  - exfalso. destruct (conform_loop_wf Hr Hi _ (get_true_wf Hr Hi gt_fuel) _ _ _ _ _ _ _ _ _ _ W (tm_wf_nil _) El) as (_ & _ & N & _ & F & _).
    destruct ps as [|x ps]; [cbn in N; lia|]. inversion F as [|? ? (q & Q & _) _]; subst. unfold vkid in Q. rewrite S in Q. discriminate.
Qed.

Lemma cond_more v pos neg sp sn (m : mgr) x m' : Wf m -> cond_node v pos neg sp sn m = Ok (x, m') -> adds m m' (2 * vsize (m_vt m) + 2) (2 * vsize (m_vt m) + 2).
Proof.
  intros W E. unfold cond_node in E. destruct (peq (padd pos neg) pzero); [injection E as _ <-; eapply adds_le; [apply adds_refl|lia|lia]|].
  destruct (peq pos pzero); [|destruct (peq neg pzero)]; bk E as [i m1] E1; pose proof (literal_more _ _ _ _ _ E1) as A1; apply (literal_wf Hr Hi) in E1 as (W1 & X1 & _); auto.
  - bk E as s _. bk E as [j m2] E2. injection E as _ <-. apply conformed_more in E2; auto. rewrite (me_vt _ _ _ X1) in E2. cbn [length] in E2.
    eapply adds_le; [eapply adds_trans; [exact A1|exact E2]|lia|lia].
  - bk E as s _. bk E as [j m2] E2. injection E as _ <-. apply conformed_more in E2; auto. rewrite (me_vt _ _ _ X1) in E2. cbn [length] in E2.
    eapply adds_le; [eapply adds_trans; [exact A1|exact E2]|lia|lia].
  - bk E as [j m2] E2. pose proof (literal_more _ _ _ _ _ E2) as A2. apply (literal_wf Hr Hi) in E2 as (W2 & X2 & _); auto. bk E as s1 _. bk E as s2 _. bk E as [k m3] E3. injection E as _ <-.
    apply conformed_more in E3; auto. rewrite (me_vt _ _ _ X2), (me_vt _ _ _ X1) in E3. cbn [length] in E3.
    eapply adds_le; [eapply adds_trans; [exact A1|eapply adds_trans; [exact A2|exact E3]]|lia|lia].
Qed.
Lemma term_more v pos neg (m : mgr) x m' : term_node v pos neg m = Ok (x, m') -> adds m m' 1 1.
Proof.
  intros E. unfold term_node in E. destruct (peq (padd pos neg) pzero); [injection E as _ <-; eapply adds_le; [apply adds_refl|lia|lia]|].
  destruct (peq pos pzero); [|destruct (peq neg pzero)]; bk E as [i m1] E1; injection E as _ <-; eauto using literal_more, top_more.
Qed.
Lemma term_fold table v loc : forall ks nc zc (m : mgr) nc' zc' m', foldM (term_step table v loc) ks (nc, zc, m) = Ok (nc', zc', m') ->
  adds m m' (length ks) (length ks) /\ length nc' <= length nc + length ks.
Proof.
  induction ks as [|k ks IH]; intros nc zc m nc' zc' m' E; cbn [foldM] in E; [injection E as <- <- <-; split; [apply adds_refl|lia]|].
  bk E as [[nc1 zc1] m1] E1. apply IH in E as [A L].
  assert (adds m m1 1 1 /\ length nc1 <= S (length nc)) as [A1 L1].
  { unfold term_step in E1. destruct (Nlookup _ nc); [injection E1 as <- <- <-; split; [eapply adds_le; [apply adds_refl|lia|lia]|lia]|].
    bk E1 as ng _. bk E1 as ps _. bk E1 as [x n1] Q1. injection E1 as <- <- <-. split; [eapply term_more; eauto|cbn; lia]. }
  split; [eapply adds_le; [eapply adds_trans; [exact A1|exact A]|cbn; lia|cbn; lia]|cbn [length]; lia].
Qed.
Lemma cond_fold nc0 zc0 v loc : forall ks nc zc (m : mgr) nc' zc' m', Wf m -> foldM (cond_step nc0 zc0 v loc) ks (nc, zc, m) = Ok (nc', zc', m') ->
  adds m m' (length ks * (2 * vsize (m_vt m) + 2)) (length ks * (2 * vsize (m_vt m) + 2)) /\ length nc' <= length nc + length ks /\ Wf m' /\ m_vt m' = m_vt m.
Proof.
  induction ks as [|k ks IH]; intros nc zc m nc' zc' m' W E; cbn [foldM] in E; [injection E as <- <- <-; split; [apply adds_refl|]; split; [lia|auto]|].
  bk E as [[nc1 zc1] m1] E1.
  assert (adds m m1 (2 * vsize (m_vt m) + 2) (2 * vsize (m_vt m) + 2) /\ length nc1 <= S (length nc) /\ Wf m1 /\ m_vt m1 = m_vt m) as (A1 & L1 & W1 & V1).
  { unfold cond_step in E1. destruct (Nlookup _ nc); [injection E1 as <- <- <-; split; [eapply adds_le; [apply adds_refl|lia|lia]|split; [lia|auto]]|].
    bk E1 as q1 _. bk E1 as q2 _. bk E1 as q3 _. bk E1 as q4 _. bk E1 as [x n1] Q1. injection E1 as <- <- <-. split; [eapply cond_more; eauto|]. split; [cbn; lia|].
    destruct (cond_node_wf Hr Hi _ _ _ _ _ _ _ _ W Q1) as [W1 X1]. split; auto. apply X1. }
  apply IH in E as (A & L & W2 & V2); auto. rewrite V1 in A, V2. split; [|split; [cbn [length]; lia|auto]].
  eapply adds_le; [eapply adds_trans; [exact A1|exact A]|cbn [length]; lia|cbn [length]; lia].
Qed.
Lemma level_fold ord T : (forall k l, Permutation (ord k l) l) -> forall rest k nc zc (m : mgr) x m', Wf m -> length nc <= T -> foldM (level_step ord) rest (k, nc, zc, m) = Ok (x, m') ->
  adds m m' (length rest * (T * (2 * vsize (m_vt m) + 2))) (length rest * (T * (2 * vsize (m_vt m) + 2))) /\ Wf m' /\ m_vt m' = m_vt m.
Proof.
  intros HO. induction rest as [|[v l] rest IH]; intros k nc zc m x m' W L E; cbn [foldM] in E; [injection E as <- <-; split; [apply adds_refl|auto]|].
  bk E as [[[k1 nc1] zc1] m1] E1. unfold level_step in E1. bk E1 as loc _. bk E1 as [[nc2 zc2] n1] Q1. injection E1 as <- <- <- <-. cbn [fst snd] in E.
  apply cond_fold in Q1 as (A1 & L1 & W1 & V1); auto. rewrite (Permutation_length (HO _ _)), map_length in A1, L1. cbn [length] in L1.
  apply IH in E as (A & W2 & V2); auto; [|lia]. rewrite V1 in A, V2. split; auto.
  eapply adds_le; [eapply adds_trans; [exact A1|exact A]|cbn [length]; nia|cbn [length]; nia].
Qed.
Definition factor_bound (V : nat) (F : factor P) : nat := length (f_scope F) * (length (f_table F) * (2 * V + 2)) + V.
Theorem compile_factor_more ord (F : factor P) (m : mgr) i z m' : (forall k l, Permutation (ord k l) l) -> Wf m -> compile_factor ord F m = Ok (i, z, m') ->
  adds m m' (factor_bound (vsize (m_vt m)) F) (factor_bound (vsize (m_vt m)) F).
Proof.
  intros HO W E. unfold compile_factor in E. bk E as ser _. set (locs := flat_map _ _) in E. set (leafs := sort_pos _ _) in *. destruct (Nat.eqb (length locs) (length (rev (f_scope F)))) eqn:EL; [|discriminate].
  apply Nat.eqb_eq in EL. cbn [assert bind] in E. pose proof (combine_length (map snd leafs) locs) as CL. destruct (combine _ _) as [|[v l] rest]; [discriminate|]. bk E as loc _.
  bk E as [[nc zc] m1] E1. pose proof E1 as E1'. apply term_fold in E1 as [A1 L1]. rewrite seq_length in A1, L1. cbn [length fst snd] in *.
  apply (fold_wf (fun s : @ncache * @zcache P * mgr => snd s)) in E1'; auto.
  2: { intros [[nc' zc'] n] k s' Wn Q. unfold term_step in Q. destruct (Nlookup _ nc'); [injection Q as <-; auto using mext_refl|].
    bk Q as ng _. bk Q as ps _. bk Q as [x n1] Q1. injection Q as <-. eapply (term_node_wf Hr Hi); eauto. }
  destruct E1' as [W1 X1]. cbn [snd] in W1, X1. bk E as [x m2] E2. apply (level_fold ord (length (f_table F)) HO) in E2 as (A2 & W2 & V2); auto.
  destruct x as [[k nc2] zc2]. bk E as u1 _. bk E as r _. bk E as z1 _. bk E as j _. bk E as [j' m3] E3. injection E as <- <- <-.
  unfold NormalizePsddNode in E3. bk E3 as [[j1 tm1] m4] E4. injection E3 as _ <-.
  apply (normalize_more _ _ _ _ _ _ _ _ _ (m_vt m2) W2 (tm_wf_nil _)) in E4; [|reflexivity]. rewrite V2, (me_vt _ _ _ X1) in E4. rewrite (me_vt _ _ _ X1) in A2.
  rewrite rev_length in EL. unfold factor_bound. set (V := vsize (m_vt m)) in *.
  assert (LR : S (length rest) <= length (f_scope F)) by lia.
  eapply adds_le; [eapply adds_trans; [exact A1|eapply adds_trans; [exact A2|exact E4]]|nia|nia].
Qed.
Theorem load_factors_more ords : (forall a b c, Permutation (ords a b c) c) -> forall (fs : network P) k z (m : mgr) nodes z' m', Wf m -> load_factors ords k fs z m = Ok (nodes, z', m') ->
  adds m m' (list_sum (map (factor_bound (vsize (m_vt m))) fs)) (list_sum (map (factor_bound (vsize (m_vt m))) fs)).
Proof.
  intros HO. induction fs as [|F fs IH]; intros k z m nodes z' m' W E; cbn [load_factors] in E.
  - injection E as <- <- <-. apply adds_refl.
  - bk E as [[i z1] m1] E1. bk E as [[ns z2] m2] E2. injection E as <- <- <-. pose proof (compile_factor_more _ _ _ _ _ _ (HO k) W E1) as A. destruct (compile_factor_wf Hr Hi _ _ _ _ _ _ W E1) as (W1 & X1 & _).
    apply IH in E2; auto. rewrite (me_vt _ _ _ X1) in E2. cbn [map]. change (list_sum (?a :: ?l)) with (a + list_sum l). eapply adds_trans; eauto.
Qed.
End SizeFactor.
