(** Meaning of heap nodes, and what node creation returns (exact parameters). *)
From Coq Require Import Reals Lra.
From Verif Require Import Base Param Vtree VtreeProofs Spec SpecProofs Heap Manager HeapProofs SerProofs.

Section Rep.
Context {P : pops} (val : P -> R).
Notation heap := (heap P). Notation mgr := (mgr P). Notation node := (node P).

(** The node at index i represents the PSDD t. *)
Inductive Rep (h : heap) : nat -> ptree -> Prop :=
| Rep_lit i nd l : nth_error h i = Some nd -> n_body nd = BLit l -> Rep h i (TLit l)
| Rep_top i nd v pt pf : nth_error h i = Some nd -> n_body nd = BTop v pt pf -> Rep h i (TTop v (val pt) (val pf))
| Rep_dec i nd es tes : nth_error h i = Some nd -> n_body nd = BDec es ->
    Forall2 (fun e te => Rep h (e_prime e) (tp te) /\ Rep h (e_sub e) (ts te) /\ tw te = val (e_param e)) es tes ->
    Rep h i (TDec tes).

Lemma Rep_lit_inv h i l : Rep h i (TLit l) -> exists nd, nth_error h i = Some nd /\ n_body nd = BLit l.
Proof. intros H. inversion H; subst; eauto. Qed.
Lemma Rep_top_inv h i v a b : Rep h i (TTop v a b) -> exists nd pt pf, nth_error h i = Some nd /\ n_body nd = BTop v pt pf /\ a = val pt /\ b = val pf.
Proof. intros H. inversion H; subst; eauto 10. Qed.
Definition ElemRep h (e : elem P) te := Rep h (e_prime e) (tp te) /\ Rep h (e_sub e) (ts te) /\ tw te = val (e_param e).
Lemma Rep_dec_inv h i tes : Rep h i (TDec tes) -> exists nd es, nth_error h i = Some nd /\ n_body nd = BDec es /\ Forall2 (ElemRep h) es tes.
Proof. intros H. inversion H; subst; eauto 10. Qed.

Lemma Forall2_impl_in {A B} (R S : A -> B -> Prop) l1 l2 : (forall a b, In a l1 -> In b l2 -> R a b -> S a b) ->
  Forall2 R l1 l2 -> Forall2 S l1 l2.
Proof.
  intros H F. induction F as [|a b l1 l2 HR F IH]; constructor.
  - apply H; simpl; auto.
  - apply IH. intros; apply H; simpl; auto.
Qed.
Lemma Rep_ext h l i t : Rep h i t -> Rep (h ++ l) i t.
Proof.
  assert (forall i nd, nth_error h i = Some nd -> nth_error (h ++ l) i = Some nd) as X.
  { intros j nd E. rewrite nth_error_app1; auto. apply nth_error_Some. congruence. }
  revert i. induction t as [z|v a b|es IH] using ptree_ind2; intros i H.
  - apply Rep_lit_inv in H as (nd & H1 & H2). econstructor; eauto.
  - apply Rep_top_inv in H as (nd & pt & pf & H1 & H2 & -> & ->). econstructor; eauto.
  - apply Rep_dec_inv in H as (nd & les & H1 & H2 & H3). econstructor; eauto.
    eapply Forall2_impl_in; [|exact H3]. intros e te He Hte (A & B & C). rewrite Forall_forall in IH.
    destruct (IH te Hte). auto.
Qed.
Lemma Rep_mext fl m m' i t : mext fl m m' -> Rep (m_heap m) i t -> Rep (m_heap m') i t.
Proof. intros [_ (l & -> & _) _ _]. apply Rep_ext. Qed.

Lemma Forall2_fun_eq {A} (R : A -> ptree * ptree * R -> Prop) l : forall l1 l2, Forall2 R l l1 -> Forall2 R l l2 ->
  (forall a b c, In b l1 -> R a b -> R a c -> b = c) -> l1 = l2.
Proof.
  induction l as [|a l IH]; intros l1 l2 H1 H2 HU; inversion H1; inversion H2; subst; auto.
  f_equal.
  - eapply HU; eauto. left; auto.
  - eapply IH; eauto. intros; eapply HU; eauto. right; auto.
Qed.
Lemma te_eq (a b : ptree * ptree * R) : tp a = tp b -> ts a = ts b -> tw a = tw b -> a = b.
Proof. destruct a as [[? ?] ?], b as [[? ?] ?]; unfold tp, ts, tw; simpl; intros; subst; auto. Qed.
Lemma Rep_fun h t : forall i t', Rep h i t -> Rep h i t' -> t = t'.
Proof.
  induction t as [z|v a b|es IH] using ptree_ind2; intros i t' H H'.
  - apply Rep_lit_inv in H as (nd & H1 & H2). inversion H'; subst; congruence.
  - apply Rep_top_inv in H as (nd & pt & pf & H1 & H2 & -> & ->). inversion H'; subst; congruence.
  - apply Rep_dec_inv in H as (nd & les & H1 & H2 & H3). inversion H' as [| |? nd' les' tes' E1 E2 E3]; subst; try congruence.
    assert (les' = les) as -> by congruence. f_equal.
    rewrite Forall_forall in IH. eapply Forall2_fun_eq; [exact H3|exact E3|].
    intros e b c Hb (A1 & A2 & A3) (B1 & B2 & B3). destruct (IH b Hb) as [I1 I2]. apply te_eq; eauto. congruence.
Qed.
Lemma Rep_lt h i t : Rep h i t -> i < length h.
Proof. intros H. apply nth_error_Some. inversion H; congruence. Qed.

Lemma Rep_exists root h : heap_ok root h -> forall i, i < length h -> exists t, Rep h i t.
Proof.
  intros H i. induction i as [i IH] using lt_wf_ind. intros Hi.
  apply nth_error_Some in Hi as Hi'. destruct (nth_error h i) as [nd|] eqn:E; [clear Hi'|congruence].
  destruct (n_body nd) as [l|v pt pf|es] eqn:Eb.
  - exists (TLit l). econstructor; eauto.
  - eexists. eapply Rep_top; eauto.
  - assert (forall e, In e es -> e_prime e < i /\ e_sub e < i) as HC.
    { intros e He. specialize (H _ _ E). unfold node_ok in H. rewrite Eb in H. destruct H as (_ & _ & F).
      rewrite Forall_forall in F. destruct (F e He) as (A & B & _). auto. }
    assert (exists tes, Forall2 (ElemRep h) es tes) as [tes Ht].
    { clear Eb. induction es as [|e es IHe]; [exists []; constructor|].
      destruct IHe as [tes Ht]; [intros; apply HC; right; auto|].
      destruct (HC e (or_introl eq_refl)) as [L1 L2].
      destruct (IH (e_prime e)) as [tp0 R1]; [auto|lia|]. destruct (IH (e_sub e)) as [ts0 R2]; [auto|lia|].
      exists ((tp0, ts0, val (e_param e)) :: tes). constructor; auto. split; auto. }
    exists (TDec tes). econstructor; eauto.
Qed.
Lemma Rep_conforms root h : heap_ok root h -> forall t i p s, Rep h i t -> vt_of h i = Some p -> subtree root p = Some s -> conforms s t.
Proof.
  intros H t. induction t as [z|v a b|es IH] using ptree_ind2; intros i p s HR Hp Hs.
  - apply Rep_lit_inv in HR as (nd & H1 & H2). unfold vt_of in Hp. rewrite H1 in Hp. injection Hp as <-.
    specialize (H _ _ H1). unfold node_ok in H. rewrite H2 in H. rewrite Hs in H. injection H as ->. reflexivity.
  - apply Rep_top_inv in HR as (nd & pt & pf & H1 & H2 & _). unfold vt_of in Hp. rewrite H1 in Hp. injection Hp as <-.
    specialize (H _ _ H1). unfold node_ok in H. rewrite H2 in H. rewrite Hs in H. injection H as ->. reflexivity.
  - apply Rep_dec_inv in HR as (nd & les & H1 & H2 & H3). unfold vt_of in Hp. rewrite H1 in Hp. injection Hp as <-.
    specialize (H _ _ H1). unfold node_ok in H. rewrite H2 in H. destruct H as (NE & (l & r & HV) & F).
    rewrite Hs in HV. injection HV as ->. simpl. split.
    + intros ->. inversion H3; subst. congruence.
    + rewrite Forall_forall in *. intros te Hte.
      assert (exists e, In e les /\ ElemRep h e te) as (e & He & A & B & C).
      { clear - H3 Hte. induction H3 as [|e te0 les es R F IH]; [contradiction|]. destruct Hte as [->|Hte]; [exists e; split; auto; left; auto|].
        destruct (IH Hte) as (e' & I & R'). exists e'. split; auto. right; auto. }
      destruct (F e He) as (_ & _ & V1 & V2). destruct (IH te Hte) as [I1 I2]. split.
      * eapply I1; eauto. simpl. rewrite Hs. reflexivity.
      * eapply I2; eauto. simpl. rewrite Hs. reflexivity.
Qed.
(** Every reachable node represents something that occurs in the tree. *)
Lemma Forall2_in_l {A B} (R : A -> B -> Prop) l1 l2 a : Forall2 R l1 l2 -> In a l1 -> exists b, In b l2 /\ R a b.
Proof.
  induction 1 as [|x y l1 l2 HR F IH]; intros H; [contradiction|]. destruct H as [->|H].
  - exists y. split; auto. left; auto.
  - destruct (IH H) as (b & I & R'). exists b. split; auto. right; auto.
Qed.
Lemma Forall2_in_r {A B} (R : A -> B -> Prop) l1 l2 b : Forall2 R l1 l2 -> In b l2 -> exists a, In a l1 /\ R a b.
Proof.
  induction 1 as [|x y l1 l2 HR F IH]; intros H; [contradiction|]. destruct H as [->|H].
  - exists x. split; auto. left; auto.
  - destruct (IH H) as (a & I & R'). exists a. split; auto. right; auto.
Qed.
Lemma reach_all_nodes h Q i j t t' : reach h i j -> Rep h i t -> Rep h j t' -> all_nodes Q t -> all_nodes Q t'.
Proof.
  intros HR. revert t. induction HR as [i|i nd c j E Hc _ IH]; intros t Ht Ht' HA.
  - rewrite <- (Rep_fun _ _ _ _ Ht Ht'). exact HA.
  - apply in_children in Hc as (es & e & Eb & He & Hc). inversion Ht as [| |? nd' les tes E1 E2 F]; subst; try congruence.
    assert (les = es) as -> by congruence. apply all_nodes_dec in HA as [_ HA]. rewrite Forall_forall in HA.
    destruct (Forall2_in_l _ _ _ _ F He) as (te & Hte & R1 & R2 & _). destruct (HA te Hte) as [A1 A2].
    destruct Hc as [->| ->]; eauto.
Qed.

Local Open Scope R_scope.
Context (HP : pexact P val).
Lemma val_peq_refl (a : P) : peq a a = true.
Proof. apply (val_eq HP). reflexivity. Qed.
Lemma val_plt_irrefl (a : P) : plt a a = false.
Proof. destruct (plt a a) eqn:E; auto. apply (val_lt HP) in E. lra. Qed.
Hint Resolve val_peq_refl val_plt_irrefl : core.

(** ** Content equality *)
Definition elem_same (e e' : elem P) := e_prime e = e_prime e' /\ e_sub e = e_sub e' /\ val (e_param e) = val (e_param e').
Definition body_sim (b b' : body P) : Prop :=
  match b, b' with
  | BLit l, BLit l' => l = l'
  | BTop v pt _, BTop v' pt' _ => v = v' /\ val pt = val pt'
  | BDec es, BDec es' => Forall2 elem_same es es'
  | _, _ => False
  end.
Definition body_same (b b' : body P) : Prop :=
  match b, b' with
  | BLit l, BLit l' => l = l'
  | BTop v pt pf, BTop v' pt' pf' => v = v' /\ val pt = val pt' /\ val pf = val pf'
  | BDec es, BDec es' => Forall2 elem_same es es'
  | _, _ => False
  end.
Lemma elems_equiv (l1 : list (elem P)) : forall l2, elems_less l1 l2 = false -> elems_less l2 l1 = false -> Forall2 elem_same l1 l2.
Proof.
  induction l1 as [|e l1 IH]; intros [|e' l2] H1 H2; simpl in *; try discriminate; auto.
  rewrite (Nat.eqb_sym (e_prime e') (e_prime e)), (Nat.eqb_sym (e_sub e') (e_sub e)) in H2.
  destruct (Nat.eqb (e_prime e) (e_prime e')) eqn:E1; simpl in *.
  - destruct (Nat.eqb (e_sub e) (e_sub e')) eqn:E2; simpl in *.
    + destruct (peq (e_param e) (e_param e')) eqn:E3; simpl in *.
      * apply (val_eq HP) in E3 as E4. assert (peq (e_param e') (e_param e) = true) as E5 by (apply (val_eq HP); congruence).
        rewrite E5 in H2. simpl in H2. constructor; auto. apply Nat.eqb_eq in E1, E2. split; auto.
      * exfalso. assert (val (e_param e) <> val (e_param e')) as NE by (intros X; apply (val_eq HP) in X; congruence).
        assert (peq (e_param e') (e_param e) = false) as E5.
        { destruct (peq (e_param e') (e_param e)) eqn:E5; auto. apply (val_eq HP) in E5. congruence. }
        rewrite E5 in H2. simpl in H2. destruct (Rtotal_order (val (e_param e)) (val (e_param e'))) as [L|[L|L]]; [|congruence|].
        -- apply (val_lt HP) in L. congruence.
        -- apply (val_lt HP) in L. congruence.
    + apply Nat.eqb_neq in E2. apply Nat.ltb_ge in H1, H2. lia.
  - apply Nat.eqb_neq in E1. apply Nat.ltb_ge in H1, H2. lia.
Qed.
Lemma equiv_sim (a b : node) : equiv a b = true -> body_sim (n_body a) (n_body b).
Proof.
  intros H. pose proof (equiv_flag a b H) as F. unfold equiv, node_less in H.
  rewrite F, !N.eqb_refl in H. simpl in H. apply andb_true_iff in H as [H1 H2]. apply negb_true_iff in H1, H2.
  destruct (n_body a) as [la|va ta fa|ea], (n_body b) as [lb|vb tb fb|eb]; try discriminate; simpl.
  - apply Z.ltb_ge in H1, H2. lia.
  - rewrite (N.eqb_sym vb va) in H2. destruct (N.eqb va vb) eqn:E; simpl in *.
    + apply N.eqb_eq in E. split; auto.
      destruct (Rtotal_order (val ta) (val tb)) as [L|[L|L]]; auto; apply (val_lt HP) in L; congruence.
    + apply N.eqb_neq in E. apply N.ltb_ge in H1, H2. lia.
  - apply elems_equiv; auto.
Qed.

(** The node at index i, its vtree node, flag and meaning. *)
Definition node_at (m : mgr) (i : nat) (p : path) (t : ptree) : Prop :=
  vt_of (m_heap m) i = Some p /\ Rep (m_heap m) i t.
Definition flag_of (h : heap) (i : nat) : option N := option_map n_flag (nth_error h i).
Lemma node_at_ext fl m m' i p t : mext fl m m' -> node_at m i p t -> node_at m' i p t.
Proof. intros X [A B]. split; [eapply mext_vt | eapply Rep_mext]; eauto. Qed.
Lemma node_at_conforms m i p t : Wf m -> node_at m i p t -> exists s, subtree (m_vt m) p = Some s /\ conforms s t.
Proof.
  intros W [A B]. destruct (heap_ok_valid _ _ _ _ (wf_heap _ W) A) as [s Hs]. exists s. split; auto.
  eapply Rep_conforms; eauto. apply W.
Qed.

Lemma mk_elems_ok (es : list (elem P)) : forall pre, pre ++ map e_param es <> [] ->
  mk_elems (pre ++ map e_param es) (length pre) (map e_prime es) (map e_sub es) = Ok es.
Proof.
  induction es as [|e es IH]; intros pre NE; simpl; auto.
  unfold param_at. destruct (pre ++ e_param e :: map e_param es) as [|w ws] eqn:E; [destruct pre; discriminate|].
  rewrite <- E. rewrite nth_error_app2, Nat.sub_diag by lia. simpl.
  specialize (IH (pre ++ [e_param e])). rewrite <- app_assoc, app_length in IH. simpl in IH.
  replace (length pre + 1)%nat with (S (length pre)) in IH by lia. rewrite IH.
  - simpl. destruct e; reflexivity.
  - destruct pre; discriminate.
Qed.
Lemma Forall2_perm {A B} (R : A -> B -> Prop) l1 l2 : Permutation l1 l2 -> forall m1, Forall2 R l1 m1 ->
  exists m2, Permutation m1 m2 /\ Forall2 R l2 m2.
Proof.
  induction 1 as [|x l1 l2 H IH|x y l|l1 l2 l3 H1 IH1 H2 IH2]; intros m1 F.
  - inversion F; subst. exists []. auto.
  - inversion F as [|? b ? m1' HR F']; subst. destruct (IH _ F') as (m2 & A1 & A2). exists (b :: m2). auto.
  - inversion F as [|? b ? m1' HR F']; subst. inversion F' as [|? c ? m1'' HR' F'']; subst.
    exists (c :: b :: m1''). split; [apply perm_swap|auto].
  - destruct (IH1 _ F) as (m2 & A1 & A2). destruct (IH2 _ A2) as (m3 & B1 & B2). exists m3. split; auto. eapply perm_trans; eauto.
Qed.
Lemma Forall2_elem_same h es es' tes : Forall2 elem_same es es' -> Forall2 (ElemRep h) es tes -> Forall2 (ElemRep h) es' tes.
Proof.
  intros F. revert tes. induction F as [|e e' es es' (A & B & C) F IH]; intros tes H; inversion H; subst; constructor; auto.
  destruct H2 as (R1 & R2 & R3). unfold ElemRep. rewrite <- A, <- B, <- C. auto.
Qed.
(** ** Top nodes: equal true parameter must force equal false parameter.
    The specifications of node creation are proved for any relation [T v a b] between variable, true and false
    parameter in which [b] is determined by the others, and used mostly for [top_ok] below. *)
Section Tops.
Context (T : N -> R -> R -> Prop) (Tfun : forall v a b b', T v a b -> T v a b' -> b = b').
Definition tops_in (m : mgr) (fl : N) : Prop := forall i nd v pt pf, In i (m_live m) ->
  nth_error (m_heap m) i = Some nd -> n_flag nd = fl -> n_body nd = BTop v pt pf -> T v (val pt) (val pf).
Definition InvT (fl : N) (m : mgr) : Prop := Wf m /\ tops_in m fl.
Definition body_in (b : body P) : Prop := match b with BTop v pt pf => T v (val pt) (val pf) | _ => True end.
Lemma internT_spec fl m nd i m' : InvT fl m -> n_flag nd = fl -> body_in (n_body nd) ->
  node_ok (m_vt m) (m_heap m) (length (m_heap m)) nd -> GetUniqueNode m nd = (i, m') ->
  InvT fl m' /\ mext fl m m' /\ In i (m_live m') /\
  exists nd', nth_error (m_heap m') i = Some nd' /\ n_vt nd' = n_vt nd /\ n_flag nd' = fl /\ body_same (n_body nd) (n_body nd').
Proof.
  intros [W T0] Ef BO NO E.
  destruct (unique_wf val_peq_refl val_plt_irrefl m nd i m' W NO E) as (W' & X & L & _ & nd' & E1 & V & F & S & Q).
  rewrite Ef in *.
  assert (tops_in m' fl) as T1.
  { destruct (unique_spec val_peq_refl val_plt_irrefl m nd i m' W NO E) as (_ & _ & _ & _ & [[-> _]|(Ei & Eh & El)]); auto.
    intros j ndj v pt pf Hj Ej Efj Ebj. rewrite El in Hj. rewrite Eh in Ej.
    apply in_app_iff in Hj as [Hj|[<-|[]]].
    - rewrite nth_error_app1 in Ej by (apply (wf_range _ W); auto). eapply T0; eauto.
    - rewrite Ei, nth_error_app2, Nat.sub_diag in Ej by lia. injection Ej as <-. rewrite Ebj in BO. exact BO. }
  split; [split; auto|]. split; auto. split; auto. exists nd'. repeat split; auto.
  apply equiv_sim in Q. unfold body_sim in Q. unfold body_same.
  destruct (n_body nd) as [la|va ta fa|ea] eqn:Ea, (n_body nd') as [lb|vb tb fb|eb] eqn:Eb; auto.
  destruct Q as [-> Q]. repeat split; auto.
  pose proof (T1 i nd' vb tb fb L E1 F Eb) as O. rewrite <- Q in O. simpl in BO. eapply Tfun; eauto.
Qed.

Lemma literalT_spec fl m l p : InvT fl m -> subtree (m_vt m) p = Some (Leaf (lit_var l)) ->
  exists i m', GetPsddLiteralNode m l fl = Ok (i, m') /\ InvT fl m' /\ mext fl m m' /\ In i (m_live m') /\
    node_at m' i p (TLit l) /\ flag_of (m_heap m') i = Some fl.
Proof.
  intros I S. unfold GetPsddLiteralNode. pose proof (leaf_path_unique _ _ _ (wf_leaves _ (proj1 I)) S) as E.
  unfold lit_var in E. rewrite E.
  destruct (GetUniqueNode m (MkN p fl (BLit l))) as [i m'] eqn:EU. exists i, m'. split; auto.
  assert (NO : node_ok (m_vt m) (m_heap m) (length (m_heap m)) (MkN p fl (BLit l))) by exact S.
  destruct (internT_spec fl m (MkN p fl (BLit l)) i m' I eq_refl Logic.I NO EU) as (I' & X & L & nd' & E1 & V & F & B).
  simpl in B, V. destruct (n_body nd') as [l'| |] eqn:Eb; try contradiction. subst l'.
  split; auto. split; auto. split; auto. split; [split|].
  - unfold vt_of. rewrite E1. simpl. congruence.
  - econstructor; eauto.
  - unfold flag_of. rewrite E1. simpl. congruence.
Qed.
Lemma topT_spec fl m v pt pf p : InvT fl m -> subtree (m_vt m) p = Some (Leaf v) -> T v (val pt) (val pf) ->
  exists i m', GetPsddTopNode m v fl pt pf = Ok (i, m') /\ InvT fl m' /\ mext fl m m' /\ In i (m_live m') /\
    node_at m' i p (TTop v (val pt) (val pf)) /\ flag_of (m_heap m') i = Some fl.
Proof.
  intros I S TO. unfold GetPsddTopNode. pose proof (leaf_path_unique _ _ _ (wf_leaves _ (proj1 I)) S) as E.
  rewrite E.
  destruct (GetUniqueNode m (MkN p fl (BTop v pt pf))) as [i m'] eqn:EU. exists i, m'. split; auto.
  assert (NO : node_ok (m_vt m) (m_heap m) (length (m_heap m)) (MkN p fl (BTop v pt pf))) by exact S.
  destruct (internT_spec fl m (MkN p fl (BTop v pt pf)) i m' I eq_refl TO NO EU) as (I' & X & L & nd' & E1 & V & F & B).
  simpl in B, V. destruct (n_body nd') as [|v' pt' pf'|] eqn:Eb; try contradiction. destruct B as (-> & B1 & B2).
  split; auto. split; auto. split; auto. split; [split|].
  - unfold vt_of. rewrite E1. simpl. congruence.
  - rewrite B1, B2. econstructor; eauto.
  - unfold flag_of. rewrite E1. simpl. congruence.
Qed.

Lemma new_decT_spec fl m vt es tes : InvT fl m -> (exists l r, subtree (m_vt m) vt = Some (VNode l r)) -> es <> [] ->
  Forall (fun e => vt_of (m_heap m) (e_prime e) = Some (false :: vt) /\ vt_of (m_heap m) (e_sub e) = Some (true :: vt)) es ->
  Forall2 (ElemRep (m_heap m)) es tes ->
  exists i m' tes', new_dec m vt fl (map e_prime es) (map e_sub es) (map e_param es) = Ok (i, m') /\
    InvT fl m' /\ mext fl m m' /\ In i (m_live m') /\ Permutation tes tes' /\
    node_at m' i vt (TDec tes') /\ flag_of (m_heap m') i = Some fl.
Proof.
  intros I HV NE FV FR. unfold new_dec.
  assert (mk_elems (map e_param es) 0 (map e_prime es) (map e_sub es) = Ok es) as EM.
  { apply (mk_elems_ok es []). destruct es; [congruence|discriminate]. }
  rewrite EM. cbn [bind].
  destruct (GetUniqueNode m (MkN vt fl (BDec (sort_elems es)))) as [i m'] eqn:EU.
  pose proof (Permutation_sym (sort_elems_perm es)) as PS.
  assert (NO : node_ok (m_vt m) (m_heap m) (length (m_heap m)) (MkN vt fl (BDec (sort_elems es)))).
  { simpl. split; [|split; auto].
    - intros Z. apply NE. rewrite Z in PS. apply Permutation_sym, Permutation_nil in PS. auto.
    - apply Forall_forall. intros e He. apply (Permutation_in _ (Permutation_sym PS)) in He.
      rewrite Forall_forall in FV. destruct (FV e He) as [A B]. repeat split; auto; eapply vt_of_lt; eauto. }
  destruct (internT_spec fl m (MkN vt fl (BDec (sort_elems es))) i m' I eq_refl Logic.I NO EU) as (I' & X & L & nd' & E1 & V & F & B).
  simpl in B, V. destruct (n_body nd') as [| |es'] eqn:Eb; try contradiction.
  destruct (Forall2_perm _ _ _ PS _ FR) as (tes' & PT & FR').
  exists i, m', tes'. split; auto. split; auto. split; auto. split; auto. split; auto. split; [split|].
  - unfold vt_of. rewrite E1. simpl. congruence.
  - eapply Rep_dec; eauto. eapply Forall2_elem_same in FR'; [|exact B].
    eapply Forall2_impl_in; [|exact FR']. intros e te _ _ (A1 & A2 & A3). repeat split; auto; eapply Rep_mext; eauto.
  - unfold flag_of. rewrite E1. simpl. congruence.
Qed.

End Tops.
(** The distributions met in practice: true nodes and normalized top nodes *)
Definition top_ok (a b : R) : Prop := (a = 1 /\ b = 1) \/ (a + b = 1 /\ 0 < b).
Lemma top_ok_fun a b b' : top_ok a b -> top_ok a b' -> b = b'.
Proof. unfold top_ok. intros [[-> ->]|[H1 H2]] [[H3 ->]|[H3 H4]]; lra. Qed.
Definition tops_ok (m : mgr) (fl : N) : Prop := forall i nd v pt pf, In i (m_live m) ->
  nth_error (m_heap m) i = Some nd -> n_flag nd = fl -> n_body nd = BTop v pt pf -> top_ok (val pt) (val pf).
Definition Inv (fl : N) (m : mgr) : Prop := Wf m /\ tops_ok m fl.
Lemma tops_frame fl fl' m m' : Wf m -> mext fl m m' -> fl' <> fl -> tops_ok m fl' -> tops_ok m' fl'.
Proof.
  intros W [_ (l & Hl & Fl) _ HN] NE T i nd v pt pf Hi E Ef Eb. destruct (HN i Hi) as [Hi'|Hi'].
  - eapply T; eauto. rewrite Hl, nth_error_app1 in E by (apply (wf_range _ W); auto). exact E.
  - rewrite Hl, nth_error_app2 in E by auto. apply nth_error_In in E. rewrite Forall_forall in Fl. apply Fl in E. congruence.
Qed.

Definition body_ok (b : body P) : Prop := match b with BTop _ pt pf => top_ok (val pt) (val pf) | _ => True end.
Lemma intern_spec fl m nd i m' : Inv fl m -> n_flag nd = fl -> body_ok (n_body nd) ->
  node_ok (m_vt m) (m_heap m) (length (m_heap m)) nd -> GetUniqueNode m nd = (i, m') ->
  Inv fl m' /\ mext fl m m' /\ In i (m_live m') /\
  exists nd', nth_error (m_heap m') i = Some nd' /\ n_vt nd' = n_vt nd /\ n_flag nd' = fl /\ body_same (n_body nd) (n_body nd').
Proof. exact (internT_spec (fun _ : N => top_ok) (fun _ : N => top_ok_fun) fl m nd i m'). Qed.
Lemma literal_spec fl m l p : Inv fl m -> subtree (m_vt m) p = Some (Leaf (lit_var l)) ->
  exists i m', GetPsddLiteralNode m l fl = Ok (i, m') /\ Inv fl m' /\ mext fl m m' /\ In i (m_live m') /\
    node_at m' i p (TLit l) /\ flag_of (m_heap m') i = Some fl.
Proof. exact (literalT_spec (fun _ : N => top_ok) (fun _ : N => top_ok_fun) fl m l p). Qed.
Lemma top_spec fl m v pt pf p : Inv fl m -> subtree (m_vt m) p = Some (Leaf v) -> top_ok (val pt) (val pf) ->
  exists i m', GetPsddTopNode m v fl pt pf = Ok (i, m') /\ Inv fl m' /\ mext fl m m' /\ In i (m_live m') /\
    node_at m' i p (TTop v (val pt) (val pf)) /\ flag_of (m_heap m') i = Some fl.
Proof. exact (topT_spec (fun _ : N => top_ok) (fun _ : N => top_ok_fun) fl m v pt pf p). Qed.
Lemma new_dec_spec fl m vt es tes : Inv fl m -> (exists l r, subtree (m_vt m) vt = Some (VNode l r)) -> es <> [] ->
  Forall (fun e => vt_of (m_heap m) (e_prime e) = Some (false :: vt) /\ vt_of (m_heap m) (e_sub e) = Some (true :: vt)) es ->
  Forall2 (ElemRep (m_heap m)) es tes ->
  exists i m' tes', new_dec m vt fl (map e_prime es) (map e_sub es) (map e_param es) = Ok (i, m') /\
    Inv fl m' /\ mext fl m m' /\ In i (m_live m') /\ Permutation tes tes' /\
    node_at m' i vt (TDec tes') /\ flag_of (m_heap m') i = Some fl.
Proof. exact (new_decT_spec (fun _ : N => top_ok) (fun _ : N => top_ok_fun) fl m vt es tes). Qed.

(** ** True nodes *)
Fixpoint true_tree (s : vtree) : ptree :=
  match s with
  | Leaf v => TTop v 1 1
  | VNode a b => TDec [(true_tree a, true_tree b, 1)]
  end.
Lemma true_tree_weight s x : weight (true_tree s) x = 1.
Proof. induction s as [v|a IHa b IHb]; simpl; [destruct (x v); auto|]. rewrite IHa, IHb. lra. Qed.
Lemma true_tree_base s x : base (true_tree s) x = true.
Proof. induction s as [v|a IHa b IHb]; simpl; auto. rewrite IHa, IHb. auto. Qed.
Lemma true_tree_conforms s : conforms s (true_tree s).
Proof. induction s as [v|a IHa b IHb]; simpl; auto. split; [discriminate|]. constructor; auto. Qed.
Lemma true_tree_positive s : positive (true_tree s).
Proof.
  induction s as [v|a IHa b IHb]; [simpl; repeat split; lra|]. apply all_nodes_dec. split.
  - constructor; auto. unfold tw; simpl. lra.
  - constructor; auto.
Qed.
Lemma true_tree_deterministic s : deterministic (true_tree s).
Proof.
  induction s as [v|a IHa b IHb]; [split; exact Logic.I|]. apply all_nodes_dec. split.
  - constructor; auto. constructor.
  - constructor; auto.
Qed.

Definition tm_ok (tm : tmap) (m : mgr) : Prop :=
  forall k i, nlookup k tm = Some i -> exists p s, subtree (m_vt m) p = Some s /\ vpos (m_vt m) p = k /\
    node_at m i p (true_tree s) /\ In i (m_live m).
Lemma tm_ok_nil m : tm_ok [] m.
Proof. intros k i H. discriminate. Qed.
Lemma tm_ok_ext fl tm m m' : mext fl m m' -> tm_ok tm m -> tm_ok tm m'.
Proof.
  intros X T k i H. destruct (T k i H) as (p & s & A & B & C & D). exists p, s. rewrite (me_vt _ _ _ X).
  repeat split; auto; try apply (node_at_ext _ _ _ _ _ _ X C). apply (me_live _ _ _ X). auto.
Qed.
Lemma tm_ok_insert tm m p s i : tm_ok tm m -> subtree (m_vt m) p = Some s -> node_at m i p (true_tree s) -> In i (m_live m) ->
  tm_ok (tinsert tm (vpos (m_vt m) p) i) m.
Proof.
  intros T H1 H2 H3 k j H. rewrite tinsert_lookup in H. destruct (nlookup k tm) eqn:E.
  - injection H as <-. apply T; auto.
  - destruct (Nat.eqb k (vpos (m_vt m) p)) eqn:Ek; [|discriminate]. apply Nat.eqb_eq in Ek. injection H as <-.
    exists p, s. auto.
Qed.
Lemma tm_ok_at tm m p s i : tm_ok tm m -> subtree (m_vt m) p = Some s -> nlookup (vpos (m_vt m) p) tm = Some i ->
  node_at m i p (true_tree s) /\ In i (m_live m).
Proof.
  intros T S E. destruct (T _ _ E) as (q & s' & A & B & C & D).
  assert (q = p) as -> by (eapply vpos_inj; eauto). rewrite S in A. injection A as ->. auto.
Qed.

Lemma normalize_here gt p fl cur tm m t : node_at m cur p t -> normalize_with gt (Some p) fl cur tm m = Ok (cur, tm, m).
Proof.
  intros [V _]. unfold normalize_with. rewrite V. cbn [get bind norm_loop].
  unfold vt_of in V. destruct (nth_error (m_heap m) cur) as [nd|]; [|discriminate]. injection V as V. cbn [get bind].
  unfold opath_eqb. rewrite V, path_eqb_refl. reflexivity.
Qed.
Lemma vkid_node root p l r b : subtree root p = Some (VNode l r) -> vkid root p b = Some (b :: p).
Proof. unfold vkid. intros ->. reflexivity. Qed.

Lemma true_step_spec gt fl tm m p s : Inv fl m -> tm_ok tm m -> subtree (m_vt m) p = Some s ->
  (forall c, In c (kids (p, s)) -> nlookup (vpos (m_vt m) (fst c)) tm <> None) ->
  exists tm' m', true_step gt fl (tm, m) (p, s) = Ok (tm', m') /\ Inv fl m' /\ mext fl m m' /\ tm_ok tm' m' /\
    nlookup (vpos (m_vt m) p) tm' <> None /\ (forall k, nlookup k tm <> None -> nlookup k tm' <> None).
Proof.
  intros I T S HK. unfold true_step. destruct s as [v|l r].
  - destruct (top_spec fl m v pone pone p I S) as (i & m' & E & I' & X & L & A & _).
    { left. rewrite (val_one HP). auto. }
    rewrite E. cbn [bind]. exists (tinsert tm (vpos (m_vt m) p) i), m'. split; auto. split; auto. split; auto. 
    rewrite (val_one HP) in A. split; [|split].
    + rewrite <- (me_vt _ _ _ X). eapply (tm_ok_insert tm m' p (Leaf v)); eauto.
      * eapply tm_ok_ext; eauto.
      * rewrite (me_vt _ _ _ X). exact S.
    + rewrite tinsert_lookup, Nat.eqb_refl. destruct (nlookup (vpos (m_vt m) p) tm); discriminate.
    + intros k Hk. rewrite tinsert_lookup. destruct (nlookup k tm); congruence.
  - pose proof (HK (false :: p, l) (or_introl eq_refl)) as Kl. pose proof (HK (true :: p, r) (or_intror (or_introl eq_refl))) as Kr.
    simpl in Kl, Kr.
    destruct (nlookup (vpos (m_vt m) (false :: p)) tm) as [li|] eqn:El; [|congruence].
    destruct (nlookup (vpos (m_vt m) (true :: p)) tm) as [ri|] eqn:Er; [|congruence].
    destruct (tm_ok_at tm m (false :: p) l li T) as [Al Ll]; auto. { simpl. rewrite S. reflexivity. }
    destruct (tm_ok_at tm m (true :: p) r ri T) as [Ar Lr]; auto. { simpl. rewrite S. reflexivity. }
    unfold conformed_with. cbn [hd_error get bind]. rewrite (proj1 Al), (proj1 Ar). cbn [get bind].
    rewrite (vlca_split [] [] p : vlca (false :: p) (true :: p) = p).
    rewrite !(vkid_node _ _ _ _ _ S). cbn [conform_loop].
    rewrite (normalize_here _ _ _ _ _ _ _ Al). cbn [bind]. rewrite (normalize_here _ _ _ _ _ _ _ Ar). cbn [bind].
    destruct (new_dec_spec fl m p [MkE li ri pone] [(true_tree l, true_tree r, 1)] I) as (i & m' & tes' & E & I' & X & L & PT & A & _); eauto.
    { discriminate. }
    { constructor; auto. simpl. split; [apply Al|apply Ar]. }
    { constructor; auto. split; [|split]; simpl; [apply Al|apply Ar|]. unfold tw; simpl. symmetry. apply (val_one HP). }
    simpl in E. rewrite E. cbn [bind]. apply Permutation_length_1_inv in PT. subst tes'.
    exists (tinsert tm (vpos (m_vt m) p) i), m'. split; auto. split; auto. split; auto. split; [|split].
    + rewrite <- (me_vt _ _ _ X). eapply (tm_ok_insert tm m' p (VNode l r)); eauto.
      * eapply tm_ok_ext; eauto.
      * rewrite (me_vt _ _ _ X). exact S.
    + rewrite tinsert_lookup, Nat.eqb_refl. destruct (nlookup (vpos (m_vt m) p) tm); discriminate.
    + intros k Hk. rewrite tinsert_lookup. destruct (nlookup k tm); congruence.
Qed.
Lemma true_fold_spec gt fl : forall L done tm m, Inv fl m -> tm_ok tm m ->
  Forall (fun x => subtree (m_vt m) (fst x) = Some (snd x)) L ->
  (forall L1 x L2, L = L1 ++ x :: L2 -> forall c, In c (kids x) -> In c (done ++ L1)) ->
  (forall c, In c done -> nlookup (vpos (m_vt m) (fst c)) tm <> None) ->
  exists tm' m', foldM (true_step gt fl) L (tm, m) = Ok (tm', m') /\ Inv fl m' /\ mext fl m m' /\ tm_ok tm' m' /\
    (forall c, In c (done ++ L) -> nlookup (vpos (m_vt m) (fst c)) tm' <> None).
Proof.
  induction L as [|[p s] L IH]; intros done tm m I T F HK HD; cbn [foldM].
  - exists tm, m. rewrite app_nil_r. auto using mext_refl.
  - inversion F as [|? ? F1 F2]; subst. simpl in F1.
    destruct (true_step_spec gt fl tm m p s I T F1) as (tm1 & m1 & E & I1 & X1 & T1 & K1 & K2).
    { intros c Hc. apply HD. specialize (HK [] (p, s) L eq_refl c Hc). rewrite app_nil_r in HK. auto. }
    rewrite E. cbn [bind].
    destruct (IH (done ++ [(p, s)]) tm1 m1 I1 T1) as (tm2 & m2 & E2 & I2 & X2 & T2 & K3).
    + eapply Forall_impl; [|exact F2]. simpl. intros a. rewrite (me_vt _ _ _ X1). auto.
    + intros L1 x L2 EL c Hc. rewrite <- app_assoc. simpl. apply (HK ((p, s) :: L1) x L2); auto. simpl. congruence.
    + intros c Hc. rewrite (me_vt _ _ _ X1). apply in_app_iff in Hc as [Hc|[<-|[]]]; auto.
    + exists tm2, m2. split; auto. split; auto. split; [eapply mext_trans; eauto|]. split; auto.
      intros c Hc. rewrite <- (me_vt _ _ _ X1). apply K3. rewrite <- app_assoc. simpl. auto.
Qed.
Definition gt_spec fl (gt : gt_type) : Prop := forall p tm m s, Inv fl m -> tm_ok tm m -> subtree (m_vt m) p = Some s ->
  exists i tm' m', gt p fl tm m = Ok (i, tm', m') /\ Inv fl m' /\ mext fl m m' /\ tm_ok tm' m' /\
    node_at m' i p (true_tree s) /\ In i (m_live m').
Lemma get_true_spec fl f : gt_spec fl (get_true (S f)).
Proof.
  intros p tm m s I T Sp. cbn [get_true].
  destruct (nlookup (vpos (m_vt m) p) tm) as [i|] eqn:E.
  - destruct (tm_ok_at tm m p s i T Sp E) as [A B]. exists i, tm, m. repeat (split; auto using mext_refl).
  - rewrite Sp. cbn [get bind]. destruct (serialize_vtree_spec p s) as (ser & Es & Ps & (l & Hl) & Ks). rewrite Es. cbn [bind].
    destruct (true_fold_spec (get_true f) fl (rev ser) [] tm m I T) as (tm' & m' & EF & I' & X & T' & K).
    + apply Forall_rev. eapply ser_subtrees; eauto.
    + intros L1 x L2 EL c Hc. simpl. apply in_rev. apply (Ks (rev L2) x (rev L1)); auto.
      rewrite <- (rev_involutive ser), EL, rev_app_distr. simpl. rewrite <- app_assoc. reflexivity.
    + intros c [].
    + rewrite EF. cbn [bind]. assert (nlookup (vpos (m_vt m) p) tm' <> None) as K'.
      { apply (K (p, s)). simpl. rewrite <- in_rev, Hl. left; auto. }
      destruct (nlookup (vpos (m_vt m) p) tm') as [i|] eqn:E'; [|congruence].
      exists i, tm', m'. split; auto. split; auto. split; auto. split; auto.
      rewrite <- (me_vt _ _ _ X) in E', Sp. apply (tm_ok_at tm' m' p s i T' Sp E').
Qed.
Theorem get_true_node_spec fl m p s : Inv fl m -> subtree (m_vt m) p = Some s ->
  exists i m', GetTrueNode p fl m = Ok (i, m') /\ Inv fl m' /\ mext fl m m' /\
    node_at m' i p (true_tree s) /\ In i (m_live m').
Proof.
  intros I S. unfold GetTrueNode. destruct (get_true_spec fl 1 p [] m s I (tm_ok_nil m) S) as (i & tm' & m' & E & I' & X & _ & A & L).
  unfold gt_fuel. rewrite E. cbn [bind fst]. eauto 10.
Qed.

(** ** Normalization: lifting a node to an ancestor *)
Definition wrap (root : vtree) (b : bool) (parent : path) (t : ptree) : ptree :=
  match subtree root (negb b :: parent) with
  | Some s => if b then TDec [(true_tree s, t, 1)] else TDec [(t, true_tree s, 1)]
  | None => t
  end.
Fixpoint lift (root : vtree) (u : path) (p : path) (t : ptree) : ptree :=
  match u with
  | [] => t
  | b :: u' => lift root u' p (wrap root b (u' ++ p) t)
  end.
Lemma wrap_weight root b p t x : weight (wrap root b p t) x = weight t x.
Proof. unfold wrap. destruct (subtree root (negb b :: p)); auto. destruct b; simpl; rewrite true_tree_weight; lra. Qed.
Lemma wrap_base root b p t x : base (wrap root b p t) x = base t x.
Proof.
  unfold wrap. destruct (subtree root (negb b :: p)); auto. destruct b; simpl; rewrite true_tree_base; simpl;
  rewrite ?andb_true_r, ?orb_false_r; auto.
Qed.
Lemma lift_weight root u p : forall t x, weight (lift root u p t) x = weight t x.
Proof. induction u as [|b u IH]; intros t x; simpl; auto. rewrite IH. apply wrap_weight. Qed.
Lemma lift_base root u p : forall t x, base (lift root u p t) x = base t x.
Proof. induction u as [|b u IH]; intros t x; simpl; auto. rewrite IH. apply wrap_base. Qed.
Lemma lift_positive root u p : forall t, positive t -> positive (lift root u p t).
Proof.
  induction u as [|b u IH]; intros t H; simpl; auto. apply IH. unfold wrap.
  destruct (subtree root (negb b :: u ++ p)); auto. 
  destruct b; apply all_nodes_dec; split; repeat constructor; unfold tw, tp, ts; simpl; try lra; auto; apply true_tree_positive.
Qed.
Lemma lift_deterministic root u p : forall t, deterministic t -> deterministic (lift root u p t).
Proof.
  induction u as [|b u IH]; intros t H; simpl; auto. apply IH. unfold wrap.
  destruct (subtree root (negb b :: u ++ p)); auto.
  destruct b; apply all_nodes_dec; split; repeat constructor; unfold tw, tp, ts; simpl; auto; apply true_tree_deterministic.
Qed.

Lemma sibling root b u p : (exists s, subtree root (b :: u ++ p) = Some s) ->
  exists l r s, subtree root (u ++ p) = Some (VNode l r) /\ subtree root (negb b :: u ++ p) = Some s.
Proof.
  intros [s H]. simpl in *. destruct (subtree root (u ++ p)) as [[v|l r]|]; try discriminate.
  exists l, r. destruct b; simpl; eauto.
Qed.
Lemma norm_loop_spec fl gt : gt_spec fl gt -> forall u fuel p cur tm m t, (length u < fuel)%nat ->
  Inv fl m -> tm_ok tm m -> node_at m cur (u ++ p) t ->
  exists i tm' m', norm_loop gt fuel (Some p) fl cur tm m = Ok (i, tm', m') /\ Inv fl m' /\ mext fl m m' /\ tm_ok tm' m' /\
    node_at m' i p (lift (m_vt m) u p t) /\ (u = [] -> i = cur) /\ (u <> [] -> flag_of (m_heap m') i = Some fl /\ In i (m_live m')).
Proof.
  intros G. induction u as [|b u IH]; intros fuel p cur tm m t HF I T A.
  - destruct fuel as [|f]; [lia|]. cbn [norm_loop]. pose proof (proj1 A) as V. unfold vt_of in V.
    destruct (nth_error (m_heap m) cur) as [nd|]; [|discriminate]. injection V as V. cbn [get bind]. unfold opath_eqb.
    rewrite V. simpl. rewrite path_eqb_refl. exists cur, tm, m. simpl in A.
    split; [auto|]. split; [auto|]. split; [apply mext_refl|]. split; [auto|]. split; [auto|]. split; [auto|congruence].
  - destruct fuel as [|f]; [simpl in HF; lia|]. cbn [norm_loop]. pose proof (proj1 A) as V. unfold vt_of in V.
    destruct (nth_error (m_heap m) cur) as [nd|] eqn:En; [|discriminate]. injection V as V. cbn [get bind]. unfold opath_eqb.
    rewrite V. replace (path_eqb (b :: u ++ p) p) with false.
    2:{ symmetry. apply path_eqb_false. intros X. apply (f_equal (@length bool)) in X. simpl in X. rewrite app_length in X. lia. } destruct (heap_ok_valid _ _ _ _ (wf_heap _ (proj1 I)) (proj1 A)) as [s0 Hs0].
    destruct (sibling (m_vt m) b u p) as (l & r & s & Hp & Hs); [eauto|].
    destruct (G (negb b :: u ++ p) tm m s I T Hs) as (j & tm1 & m1 & E1 & I1 & X1 & T1 & A1 & _).
    destruct (new_dec_spec fl m1 (u ++ p) [if b then MkE j cur pone else MkE cur j pone]
       [if b then (true_tree s, t, 1) else (t, true_tree s, 1)] I1) as (k & m2 & tes' & E2 & I2 & X2 & L2 & PT & A2 & F2).
    { exists l, r. rewrite (me_vt _ _ _ X1). exact Hp. }
    { discriminate. }
    { constructor; auto. pose proof (node_at_ext _ _ _ _ _ _ X1 A) as A'. destruct b; simpl; split; first [apply A1|apply A']. }
    { constructor; auto. pose proof (node_at_ext _ _ _ _ _ _ X1 A) as A'.
      destruct b; (split; [|split]; unfold tp, ts, tw; simpl; first [apply A1|apply A'|symmetry; apply (val_one HP)]). }
    apply Permutation_length_1_inv in PT. subst tes'.
    destruct (IH f p k tm1 m2 (wrap (m_vt m) b (u ++ p) t)) as (i & tm3 & m3 & E3 & I3 & X3 & T3 & A3 & U1 & U2).
    { simpl in HF; lia. } { auto. } { eapply tm_ok_ext; eauto. }
    { unfold wrap. rewrite Hs. destruct b; exact A2. }
    exists i, tm3, m3. split.
    { destruct b; simpl in E1, E2; rewrite E1; cbn [bind]; rewrite E2; cbn [bind]; exact E3. }
    split; auto. split; [eapply mext_trans; [|eapply mext_trans]; eauto|]. split; auto. split.
    { assert (m_vt m2 = m_vt m) as EV by (rewrite (me_vt _ _ _ X2), (me_vt _ _ _ X1); auto).
      rewrite EV in A3. exact A3. }
    split; [discriminate|]. intros _. destruct u as [|b' u'].
    + rewrite (U1 eq_refl) in *. split.
      * unfold flag_of in *. destruct (nth_error (m_heap m2) k) as [nk|] eqn:Ek; [|discriminate].
        rewrite (mext_nth _ _ _ _ _ X3 Ek). exact F2.
      * apply (me_live _ _ _ X3). exact L2.
    + apply U2. discriminate.
Qed.
Lemma normalize_with_spec fl gt : gt_spec fl gt -> forall u p cur tm m t, 
  Inv fl m -> tm_ok tm m -> node_at m cur (u ++ p) t ->
  exists i tm' m', normalize_with gt (Some p) fl cur tm m = Ok (i, tm', m') /\ Inv fl m' /\ mext fl m m' /\ tm_ok tm' m' /\
    node_at m' i p (lift (m_vt m) u p t) /\ (u = [] -> i = cur) /\ (u <> [] -> flag_of (m_heap m') i = Some fl /\ In i (m_live m')).
Proof.
  intros G u p cur tm m t I T A. unfold normalize_with. rewrite (proj1 A). cbn [get bind].
  apply norm_loop_spec; auto. rewrite app_length. lia.
Qed.
Theorem normalize_spec fl m u p cur t : Inv fl m -> node_at m cur (u ++ p) t ->
  exists i m', NormalizePsddNode (Some p) cur fl m = Ok (i, m') /\ Inv fl m' /\ mext fl m m' /\
    node_at m' i p (lift (m_vt m) u p t) /\ (u = [] -> i = cur) /\ (u <> [] -> flag_of (m_heap m') i = Some fl /\ In i (m_live m')).
Proof.
  intros I A. unfold NormalizePsddNode.
  destruct (normalize_with_spec fl (get_true gt_fuel) (get_true_spec fl 1) u p cur [] m t I (tm_ok_nil m) A)
    as (i & tm' & m' & E & I' & X & _ & R). rewrite E. cbn [bind fst]. exists i, m'. auto.
Qed.
(** The target is not an ancestor: the assertion fails. *)
Lemma norm_loop_abort fl gt target : gt_spec fl gt -> forall u fuel cur tm m t, (length u < fuel)%nat ->
  (forall v, (exists w, u = w ++ v) -> target <> Some v) ->
  Inv fl m -> tm_ok tm m -> node_at m cur u t -> norm_loop gt fuel target fl cur tm m = Abort.
Proof.
  intros G. induction u as [|b u IH]; intros fuel cur tm m t HF NT I T A.
  - destruct fuel as [|f]; [lia|]. cbn [norm_loop]. pose proof (proj1 A) as V. unfold vt_of in V.
    destruct (nth_error (m_heap m) cur) as [nd|]; [|discriminate]. injection V as V. cbn [get bind]. unfold opath_eqb.
    rewrite V. destruct target as [q|]; auto. destruct (path_eqb [] q) eqn:E; auto. apply path_eqb_true in E. subst q.
    exfalso. apply (NT []); auto. exists []. auto.
  - destruct fuel as [|f]; [simpl in HF; lia|]. cbn [norm_loop]. pose proof (proj1 A) as V. unfold vt_of in V.
    destruct (nth_error (m_heap m) cur) as [nd|] eqn:En; [|discriminate]. injection V as V. cbn [get bind]. unfold opath_eqb.
    rewrite V. assert (opath_eqb (b :: u) target = false) as X0.
    { unfold opath_eqb. destruct target as [q|]; auto. apply path_eqb_false. intros <-. apply (NT (b :: u)); auto. exists []; auto. }
    unfold opath_eqb in X0. rewrite X0.
    destruct (heap_ok_valid _ _ _ _ (wf_heap _ (proj1 I)) (proj1 A)) as [s0 Hs0].
    pose proof (sibling (m_vt m) b u []) as SB. rewrite app_nil_r in SB. destruct SB as (l & r & s & Hp & Hs); [eauto|].
    destruct (G (negb b :: u) tm m s I T Hs) as (j & tm1 & m1 & E1 & I1 & X1 & T1 & A1 & _).
    destruct (new_dec_spec fl m1 u [if b then MkE j cur pone else MkE cur j pone]
       [if b then (true_tree s, t, 1) else (t, true_tree s, 1)] I1) as (k & m2 & tes' & E2 & I2 & X2 & L2 & PT & A2 & F2).
    { exists l, r. rewrite (me_vt _ _ _ X1). exact Hp. }
    { discriminate. }
    { constructor; auto. pose proof (node_at_ext _ _ _ _ _ _ X1 A) as A'. destruct b; simpl; split; first [apply A1|apply A']. }
    { constructor; auto. pose proof (node_at_ext _ _ _ _ _ _ X1 A) as A'.
      destruct b; (split; [|split]; unfold tp, ts, tw; simpl; first [apply A1|apply A'|symmetry; apply (val_one HP)]). }
    assert (norm_loop gt f target fl k tm1 m2 = Abort) as E3.
    { eapply IH; eauto.
      - simpl in HF; lia.
      - intros v [w Hw] X. apply (NT v); auto. exists (b :: w). rewrite Hw. reflexivity.
      - eapply tm_ok_ext; eauto. }
    destruct b; simpl in E1, E2; rewrite E1; cbn [bind]; rewrite E2; cbn [bind]; exact E3.
Qed.
Theorem normalize_abort fl m target cur q t : Inv fl m -> node_at m cur q t ->
  (forall v, (exists w, q = w ++ v) -> target <> Some v) -> NormalizePsddNode target cur fl m = Abort.
Proof.
  intros I A NT. unfold NormalizePsddNode, normalize_with, gt_fuel. rewrite (proj1 A). cbn [get bind].
  rewrite (norm_loop_abort fl _ target (get_true_spec fl 1) q (S (length q)) cur [] m t); auto. apply tm_ok_nil.
Qed.

(** ** Conforming decision nodes *)
(** Requested elements: node indexes below the left / right child of [p], with their meaning. *)
Definition req (m : mgr) (p : path) (e : elem P) (u w : path) (te : ptree * ptree * R) : Prop :=
  node_at m (e_prime e) (u ++ false :: p) (tp te) /\ node_at m (e_sub e) (w ++ true :: p) (ts te) /\ tw te = val (e_param e).
Definition lift_elem (root : vtree) (p u w : path) (te : ptree * ptree * R) : ptree * ptree * R :=
  (lift root u (false :: p) (tp te), lift root w (true :: p) (ts te), tw te).
(** [tes'] are the requested elements lifted to the children of p *)
Inductive lifted (m : mgr) (p : path) : list (elem P) -> list (ptree * ptree * R) -> list (ptree * ptree * R) -> Prop :=
| lifted_nil : lifted m p [] [] []
| lifted_cons e u w te es tes tes' : req m p e u w te -> lifted m p es tes tes' ->
    lifted m p (e :: es) (te :: tes) (lift_elem (m_vt m) p u w te :: tes').
Lemma lifted_ext fl m m' p es tes tes' : mext fl m m' -> lifted m p es tes tes' -> lifted m' p es tes tes'.
Proof.
  intros X. induction 1 as [|e u w te es tes tes' (A & B & C) H IH]; [constructor|].
  rewrite <- (me_vt _ _ _ X). constructor; auto. split; [|split]; auto; eapply node_at_ext; eauto.
Qed.
Lemma conform_loop_spec fl gt : gt_spec fl gt -> forall p l r es tes tes' tm m, Inv fl m -> tm_ok tm m ->
  subtree (m_vt m) p = Some (VNode l r) -> lifted m p es tes tes' ->
  exists es' m', conform_loop gt (Some (false :: p)) (Some (true :: p)) fl (map e_prime es) (map e_sub es) tm m =
     Ok (map e_prime es', map e_sub es', m') /\ Inv fl m' /\ mext fl m m' /\ map e_param es' = map e_param es /\
     Forall (fun e => vt_of (m_heap m') (e_prime e) = Some (false :: p) /\ vt_of (m_heap m') (e_sub e) = Some (true :: p)) es' /\
     Forall2 (ElemRep (m_heap m')) es' tes'.
Proof.
  intros G p l r es. induction es as [|e es IH]; intros tes tes' tm m I T HV HL; inversion HL as [|? u w te ? tes0 tes0' (A & B & C) HL']; subst; cbn [map conform_loop].
  - exists [], m. auto 10 using mext_refl.
  - destruct (normalize_with_spec fl gt G u (false :: p) (e_prime e) tm m (tp te) I T A) as (i & tm1 & m1 & E1 & I1 & X1 & T1 & A1 & _).
    rewrite E1. cbn [bind]. 
    destruct (normalize_with_spec fl gt G w (true :: p) (e_sub e) tm1 m1 (ts te) I1 T1) as (j & tm2 & m2 & E2 & I2 & X2 & T2 & A2 & _).
    { eapply node_at_ext; eauto. }
    rewrite E2. cbn [bind].
    destruct (IH tes0 tes0' tm2 m2 I2 T2) as (es' & m3 & E3 & I3 & X3 & M3 & V3 & R3).
    { rewrite (me_vt _ _ _ X2), (me_vt _ _ _ X1). exact HV. }
    { eapply lifted_ext; [|exact HL']. eapply mext_trans; eauto. }
    rewrite E3. cbn [bind]. 
    pose proof (node_at_ext _ _ _ _ _ _ X3 (node_at_ext _ _ _ _ _ _ X2 A1)) as A1'. pose proof (node_at_ext _ _ _ _ _ _ X3 A2) as A2'.
    exists (MkE i j (e_param e) :: es'), m3. cbn [map e_prime e_sub e_param]. split; auto. split; auto.
    split; [eapply mext_trans; [|eapply mext_trans]; eauto|]. split; [congruence|]. split.
    + constructor; auto. simpl. split; [apply A1'|apply A2'].
    + constructor; auto. unfold ElemRep, lift_elem, tp, ts, tw; simpl. split; [apply A1'|]. split; auto.
      rewrite (me_vt _ _ _ X1) in A2'. apply A2'.
Qed.
Theorem conformed_spec fl gt m p l r es tes tes' : gt_spec fl gt -> Inv fl m ->
  subtree (m_vt m) p = Some (VNode l r) -> es <> [] -> lifted m p es tes tes' ->
  exists i m' tes2, conformed_with gt m (map e_prime es) (map e_sub es) (map e_param es) fl = Ok (i, m') /\
    Inv fl m' /\ mext fl m m' /\ In i (m_live m') /\ Permutation tes' tes2 /\ node_at m' i p (TDec tes2) /\ flag_of (m_heap m') i = Some fl.
Proof.
  intros G I HV NE HL. destruct es as [|e es]; [congruence|].
  inversion HL as [|? u w te ? tes0 tes0' (A & B & C) HL']; subst.
  unfold conformed_with. cbn [map hd_error get bind]. rewrite (proj1 A), (proj1 B). cbn [get bind].
  rewrite vlca_split. rewrite !(vkid_node _ _ _ _ _ HV).
  destruct (conform_loop_spec fl gt G p l r _ _ _ [] m I (tm_ok_nil m) HV HL) as (es' & m1 & E1 & I1 & X1 & M1 & V1 & R1).
  change (e_prime e :: map e_prime es) with (map e_prime (e :: es)).
  change (e_sub e :: map e_sub es) with (map e_sub (e :: es)).
  change (e_param e :: map e_param es) with (map e_param (e :: es)).
  rewrite E1. cbn [bind]. rewrite <- M1.
  assert (exists l r, subtree (m_vt m1) p = Some (VNode l r)) as HV1.
  { exists l, r. rewrite (me_vt _ _ _ X1). exact HV. }
  assert (es' <> []) as NE1 by (intros ->; discriminate).
  destruct (new_dec_spec fl m1 p es' _ I1 HV1 NE1 V1 R1) as (i & m2 & tes2 & E2 & I2 & X2 & L2 & PT & A2 & F2).
  exists i, m2, tes2. split; auto. split; auto. split; [eapply mext_trans; eauto|]. auto.
Qed.
Theorem get_conformed_spec fl m p l r es tes tes' : Inv fl m ->
  subtree (m_vt m) p = Some (VNode l r) -> es <> [] -> lifted m p es tes tes' ->
  exists i m' tes2, GetConformedPsddDecisionNode m (map e_prime es) (map e_sub es) (map e_param es) fl = Ok (i, m') /\
    Inv fl m' /\ mext fl m m' /\ In i (m_live m') /\ Permutation tes' tes2 /\ node_at m' i p (TDec tes2) /\ flag_of (m_heap m') i = Some fl.
Proof. apply conformed_spec, get_true_spec. Qed.
End Rep.
