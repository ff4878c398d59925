(** When Multiply stops the program: exactly if a zero parameter is combined (C29). *)
From Coq Require Import Reals Lra.
From Verif Require Import Base Param Vtree VtreeProofs Spec SpecProofs Heap Manager HeapProofs SerProofs RepProofs OrderProofs CanonProofs LoadProofs
  MulProofs ReplayProofs TreeProofs MleProofs MulRelProofs.
Local Open Scope R_scope.

(** The constant of the product of a literal and a leaf is not zero. *)
Definition zpos (t u : ptree) : Prop :=
  match t, u with
  | TLit l, TTop _ a b => 0 < (if Z.ltb 0 l then a else b)
  | TTop _ a b, TLit l => 0 < (if Z.ltb 0 l then a else b)
  | _, _ => True
  end.
(** No zero parameter is combined: the parameters of two leaves are positive, and if the primes of two elements meet and their subs meet, then
    the parameters of the elements and the constants of the products of their primes and subs are positive. *)
Fixpoint fine (t u : ptree) : Prop :=
  match t, u with
  | TTop _ a b, TTop _ a' b' => 0 < a /\ 0 < b /\ 0 < a' /\ 0 < b'
  | TDec es, TDec fs =>
      fold_right (fun e acc => (forall f, In f fs ->
        fine (fst (fst e)) (tp f) /\ (meets (fst (fst e)) (tp f) -> fine (snd (fst e)) (ts f) /\
        (meets (snd (fst e)) (ts f) -> 0 < snd e /\ 0 < tw f /\ zpos (fst (fst e)) (tp f) /\ zpos (snd (fst e)) (ts f)))) /\ acc) True es
  | _, _ => True
  end.
Definition fine1 (ab : telem * telem) : Prop :=
  fine (tp (fst ab)) (tp (snd ab)) /\ (meets (tp (fst ab)) (tp (snd ab)) -> fine (ts (fst ab)) (ts (snd ab))).
Definition fine2 (ab : telem * telem) : Prop := meets (tp (fst ab)) (tp (snd ab)) -> meets (ts (fst ab)) (ts (snd ab)) ->
  0 < tw (fst ab) /\ 0 < tw (snd ab) /\ zpos (tp (fst ab)) (tp (snd ab)) /\ zpos (ts (fst ab)) (ts (snd ab)).
Lemma fine_dec es fs : fine (TDec es) (TDec fs) <-> Forall (fun ab => fine1 ab /\ fine2 ab) (list_prod es fs).
Proof.
  cbn [fine]. induction es as [|e es IH]; cbn [fold_right list_prod]; [split; auto|]. rewrite IH, Forall_app. apply and_iff_compat_r.
  rewrite Forall_map, Forall_forall. unfold fine1, fine2. cbn [fst snd].
  split; intros H f Hf; specialize (H f Hf); change (snd (fst e)) with (ts e) in *; change (fst (fst e)) with (tp e) in *; change (snd e) with (tw e) in *; intuition.
Qed.
Lemma fine_safe t : forall u, safe t u -> fine t u.
Proof.
  induction t as [l|v a b|es IH] using ptree_ind2; intros u S; destruct u as [l'|v' a' b'|fs]; cbn [fine]; auto.
  - cbn in S. tauto.
  - apply safe_dec in S. apply fine_dec, Forall_forall. intros [e f] H. apply in_prod_iff in H as [He Hf]. rewrite Forall_forall in S, IH. specialize (S e He).
    rewrite Forall_forall in S. destruct (S f Hf) as [S1 S2]. destruct (IH e He) as [I1 I2]. unfold fine1, fine2. cbn [fst snd].
    assert (forall x y, safe x y -> zpos x y) as Z by (intros x y Q; destruct x, y; cbn in *; auto).
    split; [split; auto; intros M; apply I2, S2, M|]. intros M1 M2. destruct (S2 M1) as [S3 S4]. destruct (S4 M2). auto.
Qed.
(** r * z = a * b; the constant is zero only for a literal and a leaf *)
Record prod_fine (ta tb t : ptree) (z : R) : Prop := {
  pf_z : 0 <= z;
  pf_zpos : zpos ta tb <-> 0 < z;
  pf_weight : forall x, weight t x * z = weight ta x * weight tb x;
  pf_base : forall x, base t x = base ta x && base tb x;
  pf_pos : positive t;
  pf_norm : normalized t;
  pf_det : deterministic ta -> deterministic tb -> deterministic t;
}.

Section MulE.
Context {P : pops} (val : P -> R) (HP : pexact P val) (div0 : forall a b : P, val a = 0 -> val b = 0 -> peq (pdiv a b) pzero = true).
Notation heap := (heap P). Notation mgr := (mgr P). Notation node := (node P).
Notation node_at := (node_at val). Notation Rep := (Rep val). Notation elem_at := (elem_at val).
Notation Good := (InvT val sums).
Notation mcache := (@mcache P). Notation mres := (@mres P).

Definition mul_okE fl (m : mgr) (p : path) (ta tb : ptree) (r : mres) : Prop :=
  fine ta tb /\
  match fst r with
  | None => val (snd r) = 0 /\ forall x, base ta x && base tb x = false
  | Some i => exists t, node_at m i p t /\ prod_fine ta tb t (val (snd r)) /\ flag_of (m_heap m) i = Some fl /\ In i (m_live m)
  end.
Lemma mul_okE_ext fl (m m' : mgr) p ta tb r : mext fl m m' -> mul_okE fl m p ta tb r -> mul_okE fl m' p ta tb r.
Proof.
  intros X. unfold mul_okE. destruct (fst r) as [i|]; auto. intros (F & t & A & B & C & D). split; auto. exists t. split; [eapply node_at_ext; eauto|].
  split; auto. split; [eapply flag_of_ext; eauto|]. apply (me_live _ _ _ X); auto.
Qed.
Definition cache_okE fl (m : mgr) (c : mcache) : Prop :=
  forall pos a b r, In ((pos, a, b), r) c -> exists p ta tb, node_at m a p ta /\ node_at m b p tb /\ mul_okE fl m p ta tb r.
Lemma cache_okE_ext fl (m m' : mgr) c : mext fl m m' -> cache_okE fl m c -> cache_okE fl m' c.
Proof.
  intros X H pos a b r Hr. destruct (H _ _ _ _ Hr) as (p & ta & tb & A & B & C). exists p, ta, tb.
  split; [eapply node_at_ext; eauto|]. split; [eapply node_at_ext; eauto|]. eapply mul_okE_ext; eauto.
Qed.
Definition mul_specE fl n (rec : nat -> nat -> mgr * mcache -> res (mres * (mgr * mcache))) : Prop :=
  forall a b m c p ta tb, (a < n)%nat -> Good fl m -> cache_okE fl m c -> node_at m a p ta -> node_at m b p tb ->
  (rec a b (m, c) = Abort /\ ~ fine ta tb) \/
  exists r m' c', rec a b (m, c) = Ok (r, (m', c')) /\ Good fl m' /\ mext fl m m' /\ cache_okE fl m' c' /\ mul_okE fl m' p ta tb r.
Lemma mul_pairsE fl n rec p : mul_specE fl n rec -> forall pairs tpairs acc part m c,
  Good fl m -> cache_okE fl m c ->
  Forall2 (fun ab tab => elem_at m p (fst ab) (fst tab) /\ elem_at m p (snd ab) (snd tab)) pairs tpairs ->
  (forall ab, In ab pairs -> (e_prime (fst ab) < n /\ e_sub (fst ab) < n)%nat) ->
  (foldM (mul_pair rec) pairs (acc, part, (m, c)) = Abort /\ ~ Forall fine1 tpairs) \/
  exists new part' m' c' tnew, foldM (mul_pair rec) pairs (acc, part, (m, c)) = Ok (acc ++ new, part', (m', c')) /\
    Good fl m' /\ mext fl m m' /\ cache_okE fl m' c' /\ Forall2 (elem_at m' p) new tnew /\
    val part' = val part + rsum tw tnew /\
    (forall x, rsum (wterm x) tnew = rsum (fun ab => wterm x (fst ab) * wterm x (snd ab)) tpairs) /\
    (forall x, existsb (bterm x) tnew = existsb (fun ab => bterm x (fst ab) && bterm x (snd ab)) tpairs) /\
    Forall (fun te => (positive (tp te) /\ positive (ts te)) /\ normalized (tp te) /\ normalized (ts te)) tnew /\
    Forall (fun te => exists tab, In tab tpairs /\ forall x, base (tp te) x = pbase tab x) tnew /\
    (ForallOrdPairs pdisj tpairs -> ForallOrdPairs disj tnew) /\
    (Forall (fun tab => edet (fst tab) /\ edet (snd tab)) tpairs -> Forall edet tnew) /\
    Forall fine1 tpairs /\ (Forall (fun te => 0 < tw te) tnew <-> Forall fine2 tpairs).
Proof.
  intros HS pairs. induction pairs as [|[a b] pairs IH]; intros tpairs acc part m c I CO F HB.
  - right. inversion F; subst. exists [], part, m, c, []. rewrite app_nil_r. split; [reflexivity|]. split; auto. split; [apply mext_refl|].
    split; auto. split; [constructor|]. split; [simpl; lra|]. split; [reflexivity|]. split; [reflexivity|].
    do 5 (split; [constructor|]). split; constructor.
  - inversion F as [|? [ta tb] ? tps [(A1 & A2 & A3) (B1 & B2 & B3)] F']; subst. simpl in A1, A2, A3, B1, B2, B3.
    destruct (HB (a, b) (or_introl eq_refl)) as [La Lb]. simpl in La, Lb.
    cbn [foldM]. unfold mul_pair at 1 3.
    destruct (HS _ _ m c _ _ _ La I CO A1 B1) as [[E1 NF]|(pr & m1 & c1 & E1 & I1 & X1 & CO1 & FP & M1)]; rewrite E1; cbn [bind].
    { left. split; [reflexivity|]. intros FF. inversion FF as [|? ? [Q _] ?]; subst. exact (NF Q). }
    assert (forall x, bterm x ta && bterm x tb = (base (tp ta) x && base (tp tb) x) && (base (ts ta) x && base (ts tb) x)) as BR.
    { intros x. unfold bterm. destruct (base (tp ta) x), (base (tp tb) x), (base (ts ta) x), (base (ts tb) x); auto. }
    assert (forall m' , mext fl m m' -> Forall2 (fun ab tab => elem_at m' p (fst ab) (fst tab) /\ elem_at m' p (snd ab) (snd tab)) pairs tps) as FX.
    { intros m' X. eapply Forall2_impl_in; [|exact F']. intros ? ? _ _ [U V]. split; eapply elem_at_ext; eauto. }
    assert (forall ab, In ab pairs -> (e_prime (fst ab) < n /\ e_sub (fst ab) < n)%nat) as HB' by (intros; apply HB; right; auto).
    (* the pair contributes nothing *)
    assert (forall m' c', Good fl m' -> mext fl m m' -> cache_okE fl m' c' -> fine1 (ta, tb) -> ~ (meets (tp ta) (tp tb) /\ meets (ts ta) (ts tb)) ->
      (foldM (mul_pair rec) pairs (acc, part, (m', c')) = Abort /\ ~ Forall fine1 ((ta, tb) :: tps)) \/
      exists new part' m2 c2 tnew, foldM (mul_pair rec) pairs (acc, part, (m', c')) = Ok (acc ++ new, part', (m2, c2)) /\
    Good fl m2 /\ mext fl m m2 /\ cache_okE fl m2 c2 /\ Forall2 (elem_at m2 p) new tnew /\
    val part' = val part + rsum tw tnew /\
    (forall x, rsum (wterm x) tnew = rsum (fun ab => wterm x (fst ab) * wterm x (snd ab)) ((ta, tb) :: tps)) /\
    (forall x, existsb (bterm x) tnew = existsb (fun ab => bterm x (fst ab) && bterm x (snd ab)) ((ta, tb) :: tps)) /\
    Forall (fun te => (positive (tp te) /\ positive (ts te)) /\ normalized (tp te) /\ normalized (ts te)) tnew /\
    Forall (fun te => exists tab, In tab ((ta, tb) :: tps) /\ forall x, base (tp te) x = pbase tab x) tnew /\
    (ForallOrdPairs pdisj ((ta, tb) :: tps) -> ForallOrdPairs disj tnew) /\
    (Forall (fun tab => edet (fst tab) /\ edet (snd tab)) ((ta, tb) :: tps) -> Forall edet tnew) /\
    Forall fine1 ((ta, tb) :: tps) /\ (Forall (fun te => 0 < tw te) tnew <-> Forall fine2 ((ta, tb) :: tps))) as SKIP.
    { intros m' c' I' X' CO' FF NM.
      assert (forall x, bterm x ta && bterm x tb = false) as Z.
      { intros x. rewrite BR. apply andb_false_iff. destruct (base (tp ta) x && base (tp tb) x) eqn:Z1; auto.
        destruct (base (ts ta) x && base (ts tb) x) eqn:Z2; auto. exfalso. apply NM. split; exists x; auto. }
      destruct (IH tps acc part m' c' I' CO' (FX m' X') HB')
        as [[E NF]|(new & part' & m2 & c2 & tnew & E & I2 & X2 & CO2 & F2 & V2 & W2 & Bs2 & P2 & O2 & D2 & D3 & G1 & G2)].
      { left. split; [exact E|]. intros Q. inversion Q; subst. auto. }
      right. exists new, part', m2, c2, tnew. split; auto. split; auto. split; [eapply mext_trans; eauto|]. split; auto. split; auto. split; auto.
      split; [|split; [|split; [|split; [|split; [|split; [|split]]]]]]; auto.
      - intros x. simpl. rewrite W2. specialize (Z x). unfold wterm at 3 4.
        assert (weight (tp ta) x * weight (ts ta) x * tw ta * (weight (tp tb) x * weight (ts tb) x * tw tb) = 0) as ->; [|lra].
        rewrite BR in Z.
        destruct (base (tp ta) x) eqn:Z1; [|rewrite (weight_zero_off_base _ _ Z1); lra].
        destruct (base (tp tb) x) eqn:Z2; [|rewrite (weight_zero_off_base _ _ Z2); lra].
        destruct (base (ts ta) x) eqn:Z3; [|rewrite (weight_zero_off_base _ _ Z3); lra].
        destruct (base (ts tb) x) eqn:Z4; [discriminate|rewrite (weight_zero_off_base _ _ Z4); lra].
      - intros x. simpl. rewrite Z. simpl. auto.
      - eapply Forall_impl; [|exact O2]. intros te (tab & Ht & Hb). exists tab. split; [right|]; auto.
      - intros FO. inversion FO; subst. auto.
      - intros FO. inversion FO; subst. auto.
      - rewrite G2. split; [|intros Q; inversion Q; auto]. intros Q. constructor; auto. intros Q1 Q2. exfalso. apply NM. auto. }
    destruct (fst pr) as [pi|] eqn:Epi.
    2:{ assert (~ meets (tp ta) (tp tb)) as NM by (intros [x Hx]; rewrite (proj2 M1) in Hx; discriminate).
        apply (SKIP m1 c1 I1 X1 CO1); [split; [exact FP|cbn [fst snd]; tauto]|tauto]. }
    destruct M1 as (tpi & N1 & PO1 & _).
    assert (meets (tp ta) (tp tb)) as MP.
    { destruct (node_at_conforms val _ _ _ _ (proj1 I1) N1) as (s & Hs & C). destruct (base_sat s) with (t := tpi) as [x Hx]; auto.
      { eapply subtree_nodup; [apply (proj1 I1)|exact Hs]. }
      exists x. rewrite (pf_base _ _ _ _ PO1) in Hx. exact Hx. }
    destruct (HS _ _ m1 c1 _ _ _ Lb I1 CO1 (node_at_ext _ _ _ _ _ _ _ X1 A2) (node_at_ext _ _ _ _ _ _ _ X1 B2)) as [[E2 NF]|(sr & m2 & c2 & E2 & I2 & X2 & CO2 & FS & M2)];
      rewrite E2; cbn [bind].
    { left. split; [reflexivity|]. intros FF. inversion FF as [|? ? [_ Q] ?]; subst. exact (NF (Q MP)). }
    pose proof (mext_trans _ _ _ _ X1 X2) as X12. assert (fine1 (ta, tb)) as FF by (split; auto). destruct (fst sr) as [si|] eqn:Esi.
    2:{ apply (SKIP m2 c2 I2 X12 CO2 FF). intros [_ [x Hx]]. rewrite (proj2 M2) in Hx. discriminate. }
    destruct M2 as (tsi & N2 & PO2 & _). cbn [bind].
    assert (meets (ts ta) (ts tb)) as MS.
    { destruct (node_at_conforms val _ _ _ _ (proj1 I2) N2) as (s & Hs & C). destruct (base_sat s) with (t := tsi) as [x Hx]; auto.
      { eapply subtree_nodup; [apply (proj1 I2)|exact Hs]. }
      exists x. rewrite (pf_base _ _ _ _ PO2) in Hx. exact Hx. }
    set (w := pmul (pmul (pmul (e_param b) (e_param a)) (snd pr)) (snd sr)).
    assert (val w = tw tb * tw ta * val (snd pr) * val (snd sr)) as VW.
    { unfold w. rewrite !(val_mul HP), A3, B3. reflexivity. }
    destruct (IH tps (acc ++ [MkE pi si w]) (padd part w) m2 c2 I2 CO2 (FX m2 X12) HB')
        as [[E NF]|(new & part' & m3 & c3 & tnew & E & I3 & X3 & CO3 & F3 & V3 & W3 & Bs3 & P3 & O3 & D3 & D4 & G1 & G2)].
    { left. split; [exact E|]. intros Q. inversion Q; subst. auto. }
    right. exists (MkE pi si w :: new), part', m3, c3, ((tpi, tsi, val w) :: tnew).
    rewrite <- app_assoc in E. split; [exact E|]. split; auto. split; [eapply mext_trans; eauto|]. split; auto.
    split; [|split; [|split; [|split; [|split; [|split; [|split; [|split; [|split]]]]]]]].
    + constructor; auto. split; [|split]; simpl.
      * eapply node_at_ext; [exact X3|]. eapply node_at_ext; [exact X2|]. exact N1.
      * eapply node_at_ext; [exact X3|]. exact N2.
      * reflexivity.
    + rewrite V3, (val_add HP), rsum_cons. change (tw (tpi, tsi, val w)) with (val w). lra.
    + intros x. simpl. rewrite W3. f_equal. unfold wterm, tp at 1, ts at 1, tw at 1; simpl. rewrite VW.
      pose proof (pf_weight _ _ _ _ PO1 x) as Q1. pose proof (pf_weight _ _ _ _ PO2 x) as Q2.
      transitivity ((weight tpi x * val (snd pr)) * (weight tsi x * val (snd sr)) * (tw tb * tw ta)); [ring|]. rewrite Q1, Q2. ring.
    + intros x. simpl. rewrite Bs3. f_equal. rewrite BR. unfold bterm, tp at 1, ts at 1; simpl.
      rewrite (pf_base _ _ _ _ PO1), (pf_base _ _ _ _ PO2). reflexivity.
    + constructor; auto. unfold tp, ts; simpl. split; [split; [apply PO1|apply PO2]|split; [apply PO1|apply PO2]].
    + constructor.
      * exists (ta, tb). split; [left; auto|]. intros x. unfold tp at 1; simpl. rewrite (pf_base _ _ _ _ PO1). reflexivity.
      * eapply Forall_impl; [|exact O3]. intros te (tab & Ht & Hb). exists tab. split; [right|]; auto.
    + intros FO. inversion FO as [|? ? FO1 FO2]; subst. constructor; auto. rewrite Forall_forall in O3, FO1. apply Forall_forall.
      intros te Hte. destruct (O3 te Hte) as (tab & Ht & Hb). intros x. rewrite Hb. unfold tp; simpl. rewrite (pf_base _ _ _ _ PO1).
      apply (FO1 tab Ht x).
    + intros FO. inversion FO as [|? ? [[FO1 FO2] [FO3 FO4]] FO5]; subst. constructor; auto. split; unfold tp, ts; simpl; [apply PO1|apply PO2]; auto.
    + constructor; auto.
    + rewrite !Forall_cons_iff, G2. apply and_iff_compat_r. unfold fine2. cbn [fst snd]. change (tw (tpi, tsi, val w)) with (val w). rewrite VW.
      rewrite (pf_zpos _ _ _ _ PO1), (pf_zpos _ _ _ _ PO2). pose proof (pf_z _ _ _ _ PO1) as Z1. pose proof (pf_z _ _ _ _ PO2) as Z2.
      assert (0 <= tw ta) as Z3 by (rewrite A3; apply (val_nonneg HP)). assert (0 <= tw tb) as Z4 by (rewrite B3; apply (val_nonneg HP)). split.
      * intros Q _ _. assert (forall r, 0 <= r -> r <> 0 -> 0 < r) as LT by (intros; lra).
        split; [|split; [|split]]; apply LT; auto; intros K; rewrite K in Q; lra.
      * intros Q. destruct (Q MP MS) as (K1 & K2 & K3 & K4). apply Rmult_lt_0_compat; [apply Rmult_lt_0_compat; [apply Rmult_lt_0_compat|]|]; auto.
Qed.
Lemma cache_pos_okE fl (m : mgr) a p t : Good fl m -> node_at m a p t -> cache_pos m a = Ok (vpos (m_vt m) p).
Proof.
  intros I A. destruct (node_at_conforms val m a p t (proj1 I) A) as (s & Hs & _). unfold cache_pos. rewrite (proj1 A). cbn [get bind].
  pose proof (vpos_lt _ _ _ Hs : (vpos (m_vt m) p < cache_size (m_vt m))%nat) as L. apply Nat.ltb_lt in L. rewrite L. reflexivity.
Qed.
Lemma peq_zero (a : P) : peq a pzero = true <-> val a = 0.
Proof. rewrite (val_eq HP), (val_zero HP). reflexivity. Qed.
(** A leaf whose true parameter is zero. *)
Lemma zero_top fl (m : mgr) v pt pf p : Good fl m -> subtree (m_vt m) p = Some (Leaf v) -> val pt = 0 ->
  exists i m' nd pt' pf', GetPsddTopNode m v fl pt pf = Ok (i, m') /\ nth_error (m_heap m') i = Some nd /\ n_body nd = BTop v pt' pf' /\ peq pt' pzero = true.
Proof.
  intros I S Z. unfold GetPsddTopNode. rewrite (leaf_path_unique _ _ _ (wf_leaves _ (proj1 I)) S).
  destruct (GetUniqueNode m (MkN p fl (BTop v pt pf))) as [i m'] eqn:EU.
  assert (NO : node_ok (m_vt m) (m_heap m) (length (m_heap m)) (MkN p fl (BTop v pt pf))) by exact S.
  destruct (unique_spec (val_peq_refl val HP) (val_plt_irrefl val HP) m _ i m' (proj1 I) NO EU) as (_ & _ & _ & (nd & E1 & SS & Q) & _).
  apply (equiv_sim val HP) in Q. simpl in Q. destruct (n_body nd) as [|v' pt' pf'|] eqn:Eb; simpl in Q; try contradiction.
  destruct Q as [<- Q]. exists i, m', nd, pt', pf'. split; [reflexivity|]. split; [exact E1|]. split; [exact Eb|]. apply peq_zero. congruence.
Qed.
Theorem mul_exact_spec fl : forall n, mul_specE fl n (multiply_with_cache n fl).
Proof.
  induction n as [|n IH]; intros a b m c p ta tb La I CO Na Nb; [lia|].
  cbn [multiply_with_cache]. rewrite (cache_pos_okE fl m a p ta I Na). cbn [bind].
  destruct (alookup key_eqb (vpos (m_vt m) p, a, b) c) as [r|] eqn:EL.
  { right. exists r, m, c. split; auto. split; auto. split; [apply mext_refl|]. split; auto. apply alookup_in in EL.
    destruct (CO _ _ _ _ EL) as (p' & ta' & tb' & Na' & Nb' & M).
    destruct (node_at_fun _ _ _ _ _ _ _ Na Na') as [<- <-]. destruct (node_at_fun _ _ _ _ _ _ _ Nb Nb') as [_ <-]. exact M. }
  clear EL.
  destruct (node_at_conforms val m a p ta (proj1 I) Na) as (s & Hs & Ca).
  destruct (node_at_conforms val m b p tb (proj1 I) Nb) as (s' & Hs' & Cb). assert (s' = s) as -> by congruence. clear Hs'.
  (* common ending: the result is stored *)
  assert (forall r m', Good fl m' -> mext fl m m' -> forall c0, cache_okE fl m' c0 -> mul_okE fl m' p ta tb r ->
    exists c', cache_update m' c0 a b r = Ok c' /\ cache_okE fl m' c') as FIN.
  { intros r m' I' X c0 CO0 M. unfold cache_update. rewrite (cache_pos_okE fl m' a p ta I' (node_at_ext _ _ _ _ _ _ _ X Na)). cbn [bind].
    eexists. split; [reflexivity|]. intros pos a' b' r' [H|H]; [|eapply CO0; eauto]. injection H as <- <- <- <-.
    exists p, ta, tb. split; [|split]; auto; eapply node_at_ext; eauto. }
  pose proof Na as [Va Ra]. pose proof Nb as [Vb Rb].
  inversion Ra as [? na la Ea Eba|? na va pta pfa Ea Eba|? na ea tea Ea Eba Fa]; subst;
  inversion Rb as [? nb lb Eb Ebb|? nb vb ptb pfb Eb Ebb|? nb eb teb Eb Ebb Fb]; subst;
  (destruct s as [v|sl sr]; simpl in Ca, Cb; try contradiction); rewrite Ea, Eb; cbn [get bind];
  unfold vt_of in Va, Vb; rewrite Ea in Va; rewrite Eb in Vb; simpl in Va, Vb; injection Va as Va; injection Vb as Vb;
  rewrite Va, Vb, Nat.eqb_refl; cbn [assert bind]; rewrite Eba, Ebb.
  - (* literal, literal *)
    right. unfold lit_var at 1 2. rewrite Ca, Cb, N.eqb_refl. cbn [assert bind]. destruct (Z.eqb la lb) eqn:EZ.
    + apply Z.eqb_eq in EZ. subst lb.
      assert (subtree (m_vt m) p = Some (Leaf (lit_var la))) as S1 by (unfold lit_var; rewrite Ca; auto).
      destruct (literalT_spec val HP sums sums_fun fl m la p I S1) as (i & m' & E1 & I' & X & LV & A & FL). rewrite E1. cbn [bind].
      assert (mul_okE fl m' p (TLit la) (TLit la) (Some i, pone)) as M.
      { split; [exact Logic.I|]. exists (TLit la). split; auto. split; [|auto]. cbn [snd]. rewrite (val_one HP). split; try lra; auto using positive_lit, normalized_lit; simpl.
        - split; intros; [lra|exact Logic.I].
        - intros x. destruct (lit_sat la x); lra.
        - intros x. destruct (lit_sat la x); auto. }
      destruct (FIN _ m' I' X c (cache_okE_ext _ _ _ _ X CO) M) as (c' & E2 & CO'). rewrite E2. cbn [bind]. eauto 10.
    + assert (mul_okE fl m p (TLit la) (TLit lb) (None, pzero)) as M.
      { split; [exact Logic.I|]. split; [apply (val_zero HP)|]. intros x. simpl. unfold lit_sat. rewrite Ca, Cb. apply Z.eqb_neq in EZ.
        destruct (Z.ltb_spec 0 la), (Z.ltb_spec 0 lb), (x v); simpl; auto; exfalso; lia. }
      destruct (FIN _ m I (mext_refl _ _) c CO M) as (c' & E2 & CO'). rewrite E2. cbn [bind].
      exists (None, pzero), m, c'. split; auto. split; auto. split; [apply mext_refl|]. auto.
  - (* literal, top *)
    right. subst vb. unfold lit_var at 1. rewrite Ca, N.eqb_refl. cbn [assert bind].
    assert (subtree (m_vt m) p = Some (Leaf (lit_var la))) as S1 by (unfold lit_var; rewrite Ca; auto).
    destruct (literalT_spec val HP sums sums_fun fl m la p I S1) as (i & m' & E1 & I' & X & LV & A & FL). rewrite E1. cbn [bind].
    assert (mul_okE fl m' p (TLit la) (TTop v (val ptb) (val pfb)) (Some i, if lit_sign la then ptb else pfb)) as M.
    { split; [exact Logic.I|]. exists (TLit la). split; auto. split; [|auto]. cbn [snd]. split; auto using positive_lit, normalized_lit; simpl.
      - apply (val_nonneg HP).
      - unfold lit_sign. destruct (Z.ltb 0 la); reflexivity.
      - intros x. unfold lit_sat, lit_sign. rewrite Ca. destruct (Z.ltb 0 la), (x v); simpl; lra.
      - intros x. rewrite andb_true_r; auto. }
    destruct (FIN _ m' I' X c (cache_okE_ext _ _ _ _ X CO) M) as (c' & E2 & CO'). rewrite E2. cbn [bind]. eauto 10.
  - (* top, literal *)
    right. subst va. unfold lit_var at 1. rewrite Cb, N.eqb_refl. cbn [assert bind].
    assert (subtree (m_vt m) p = Some (Leaf (lit_var lb))) as S1 by (unfold lit_var; rewrite Cb; auto).
    destruct (literalT_spec val HP sums sums_fun fl m lb p I S1) as (i & m' & E1 & I' & X & LV & A & FL). rewrite E1. cbn [bind].
    assert (mul_okE fl m' p (TTop v (val pta) (val pfa)) (TLit lb) (Some i, if lit_sign lb then pta else pfa)) as M.
    { split; [exact Logic.I|]. exists (TLit lb). split; auto. split; [|auto]. cbn [snd]. split; auto using positive_lit, normalized_lit; simpl.
      - apply (val_nonneg HP).
      - unfold lit_sign. destruct (Z.ltb 0 lb); reflexivity.
      - intros x. unfold lit_sat, lit_sign. rewrite Cb. destruct (Z.ltb 0 lb), (x v); simpl; lra. }
    destruct (FIN _ m' I' X c (cache_okE_ext _ _ _ _ X CO) M) as (c' & E2 & CO'). rewrite E2. cbn [bind]. eauto 10.
  - (* top, top *)
    subst va vb. rewrite N.eqb_refl. cbn [assert bind].
    set (z := padd (pmul pta ptb) (pmul pfa pfb)).
    pose proof (val_nonneg HP pta) as Y1. pose proof (val_nonneg HP pfa) as Y2. pose proof (val_nonneg HP ptb) as Y3. pose proof (val_nonneg HP pfb) as Y4.
    assert (0 <= val pta * val ptb) as Z1 by (apply Rmult_le_pos; auto).
    assert (0 <= val pfa * val pfb) as Z2 by (apply Rmult_le_pos; auto).
    assert (val z = val pta * val ptb + val pfa * val pfb) as VZ by (unfold z; rewrite (val_add HP), !(val_mul HP); reflexivity).
    destruct (Req_dec (val z) 0) as [NZ|NZ].
    { left. assert (val (pmul pta ptb) = 0) as V0 by (rewrite (val_mul HP); lra).
      destruct (zero_top fl m v (pdiv (pmul pta ptb) z) (pdiv (pmul pfa pfb) z) p I Hs) as (i & m' & nd & pt' & pf' & E1 & E2 & E3 & E4).
      { apply peq_zero, div0; auto. }
      rewrite E1. cbn [bind]. rewrite E2. cbn [get bind]. rewrite E3, E4. split; [reflexivity|]. cbn [fine]. intros (P1 & _ & P3 & _).
      rewrite (val_mul HP) in V0. pose proof (Rmult_lt_0_compat _ _ P1 P3). lra. }
    assert (val (pdiv (pmul pta ptb) z) = val pta * val ptb / val z) as V1 by (rewrite (val_div HP), (val_mul HP); auto).
    assert (val (pdiv (pmul pfa pfb) z) = val pfa * val pfb / val z) as V2 by (rewrite (val_div HP), (val_mul HP); auto).
    assert (val pta * val ptb / val z + val pfa * val pfb / val z = 1) as Z5 by (rewrite VZ in *; field; auto).
    destruct (topT_spec val HP sums sums_fun fl m v (pdiv (pmul pta ptb) z) (pdiv (pmul pfa pfb) z) p I Hs) as (i & m' & E1 & I' & X & LV & A & FL).
    { unfold sums. rewrite V1, V2. auto. }
    rewrite E1. cbn [bind]. rewrite V1, V2 in A. pose proof (proj2 A) as RA. 
    assert (exists nd pt' pf', nth_error (m_heap m') i = Some nd /\ n_body nd = BTop v pt' pf' /\ val pt' = val pta * val ptb / val z /\ val pf' = val pfa * val pfb / val z)
      as (nd & pt' & pf' & E2 & E3 & Q1 & Q2) by (clear - RA; inversion RA; eauto 8).
    rewrite E2. cbn [get bind]. rewrite E3.
    assert (forall r, peq r pzero = negb (if Req_EM_T (val r) 0 then false else true)) as PQ.
    { intros r. destruct (Req_EM_T (val r) 0) as [Q|Q]; simpl; [apply peq_zero; auto|]. destruct (peq r pzero) eqn:K; auto. apply peq_zero in K. contradiction. }
    rewrite (PQ pt'), (PQ pf'), Q1, Q2.
    assert (forall x y, 0 <= x -> 0 <= y -> (x * y / val z = 0 <-> ~ (0 < x /\ 0 < y))) as K0.
    { intros x y Hx Hy. unfold Rdiv. assert (/ val z <> 0) as NI by (apply Rinv_neq_0_compat; auto). split.
      - intros Q [K1 K2]. pose proof (Rmult_lt_0_compat _ _ K1 K2). apply Rmult_integral in Q as [Q|Q]; lra.
      - intros Q. destruct (Req_dec x 0) as [->|]; [ring|]. destruct (Req_dec y 0) as [->|]; [ring|]. exfalso. apply Q. lra. }
    destruct (Req_EM_T (val pta * val ptb / val z) 0) as [K1|K1].
    { left. split; [reflexivity|]. apply K0 in K1; auto. cbn [fine]. tauto. }
    cbn [negb assert bind]. destruct (Req_EM_T (val pfa * val pfb / val z) 0) as [K2|K2].
    { left. split; [reflexivity|]. apply K0 in K2; auto. cbn [fine]. tauto. }
    right. cbn [negb assert bind].
    assert (forall x y, 0 <= x -> 0 <= y -> x * y / val z <> 0 -> 0 < x /\ 0 < y) as K3.
    { intros x y Hx Hy Q. split; apply Rnot_le_lt; intros K; apply Q; [assert (x = 0) as -> by lra|assert (y = 0) as -> by lra]; unfold Rdiv; ring. }
    destruct (K3 _ _ Y1 Y3 K1) as [P1 P2]. destruct (K3 _ _ Y2 Y4 K2) as [P3 P4].
    assert (0 < val z) as PZ by (rewrite VZ in *; lra).
    assert (mul_okE fl m' p (TTop v (val pta) (val pfa)) (TTop v (val ptb) (val pfb)) (Some i, z)) as M.
    { split; [cbn [fine]; auto|]. eexists. split; [exact A|]. split; [|auto]. cbn [snd]. split; simpl; auto.
      - lra.
      - tauto.
      - intros x. destruct (x v); field; auto.
      - unfold positive; simpl. repeat split; apply Rdiv_lt_0_compat; auto; apply Rmult_lt_0_compat; auto.
      - unfold normalized; simpl; auto. }
    destruct (FIN _ m' I' X c (cache_okE_ext _ _ _ _ X CO) M) as (c' & E4 & CO'). rewrite E4. cbn [bind]. eauto 10.
  - (* decision, decision *)
    destruct (elem_at_repR val fl m a na ea p tea I Ea Eba Va Fa) as [Fa' Ba].
    destruct (elem_at_repR val fl m b nb eb p teb I Eb Ebb Vb Fb) as [Fb' _].
    assert (fine (TDec tea) (TDec teb) <-> Forall fine1 (list_prod tea teb) /\ Forall fine2 (list_prod tea teb)) as FD by (rewrite fine_dec; rewrite !Forall_forall; split; [intros Q; split; intros ab Hab; apply (Q ab Hab)|intros [Q1 Q2] ab Hab; auto]).
    destruct (mul_pairsE fl n (multiply_with_cache n fl) p IH (list_prod ea eb) (list_prod tea teb) [] pzero m c I CO)
      as [[E1 NF]|(new & part & m1 & c1 & tnew & E1 & I1 & X1 & CO1 & F1 & V1 & W1 & Bs1 & P1 & _ & D1 & D2 & G1 & G2)].
    { apply Forall2_list_prod; auto. }
    { intros [u v] H. apply in_prod_iff in H as [H _]. destruct (Ba u H). simpl. lia. }
    { left. rewrite E1. split; [reflexivity|]. tauto. }
    rewrite E1. cbn [bind]. rewrite app_nil_l. rewrite (val_zero HP) in V1.
    destruct new as [|e0 new].
    + right. inversion F1; subst tnew.
      assert (mul_okE fl m1 p (TDec tea) (TDec teb) (None, pzero)) as M.
      { split; [apply FD; split; [exact G1|apply G2; constructor]|]. split; [apply (val_zero HP)|]. intros x. rewrite !base_dec_b, existsb_prod, <- Bs1. reflexivity. }
      destruct (FIN _ m1 I1 X1 c1 CO1 M) as (c' & E4 & CO'). rewrite E4. cbn [bind]. eexists _, m1, c'. split; [reflexivity|auto].
    + assert (Forall (fun te => 0 <= tw te) tnew) as PN.
      { clear - F1 HP. induction F1 as [|e te es tes (A & B & C) F IH]; constructor; auto. rewrite C. apply (val_nonneg HP). }
      destruct (forallb (fun w => negb (peq w pzero)) (map (fun e => pdiv (e_param e) part) (e0 :: new))) eqn:AS; cbn [assert bind].
      2:{ left. split; [reflexivity|]. intros FN. apply FD in FN as [_ FN]. apply G2 in FN.
          assert (0 < val part) as PZ.
          { rewrite V1. inversion F1 as [|? te0 ? tn]; subst. inversion FN as [|? ? PT1 PT2]; subst. inversion PN as [|? ? _ PN2]; subst. simpl.
            assert (0 <= rsum tw tn); [|lra]. apply rsum_nonneg. rewrite Forall_forall in PN2. auto. }
          assert (forallb (fun w => negb (peq w pzero)) (map (fun e => pdiv (e_param e) part) (e0 :: new)) = true) as AS'; [|rewrite AS' in AS; discriminate].
          apply forallb_forall. intros w Hw. apply in_map_iff in Hw as (e & <- & He). destruct (Forall2_in_l _ _ _ _ F1 He) as (te & Hte & _ & _ & C).
          destruct (peq (pdiv (e_param e) part) pzero) eqn:K; auto. apply peq_zero in K. rewrite (val_div HP) in K by lra. rewrite <- C in K.
          rewrite Forall_forall in FN. pose proof (Rdiv_lt_0_compat _ _ (FN te Hte) PZ). lra. }
      right.
      assert (Forall (fun te => 0 < tw te) tnew) as PT.
      { rewrite forallb_forall in AS. apply Forall_forall. intros te Hte. rewrite Forall_forall in PN. specialize (PN te Hte) as PN1.
        destruct (Req_dec (tw te) 0) as [Q|Q]; [|lra]. exfalso.
        destruct (Forall2_in_r _ _ _ _ F1 Hte) as (e & He & _ & _ & C). specialize (AS _ (in_map (fun e => pdiv (e_param e) part) _ _ He)).
        assert (peq (pdiv (e_param e) part) pzero = true) as K; [|rewrite K in AS; discriminate].
        destruct (Req_dec (val part) 0) as [Z|Z]; [apply div0; congruence|]. apply peq_zero. rewrite (val_div HP), <- C, Q by auto. unfold Rdiv. ring. }
      assert (0 < val part) as PZ.
      { rewrite V1. inversion F1 as [|? te0 ? tn]; subst. inversion PT as [|? ? PT1 PT2]; subst. inversion PN as [|? ? _ PN2]; subst. simpl.
        assert (0 <= rsum tw tn); [|lra]. apply rsum_nonneg. rewrite Forall_forall in PN2. auto. }
      assert (subtree (m_vt m1) p = Some (VNode sl sr)) as HV by (rewrite (me_vt _ _ _ X1); auto).
      set (es1 := map (fun e => MkE (e_prime e) (e_sub e) (pdiv (e_param e) part)) (e0 :: new)).
      set (tes1 := map (fun te : telem => (tp te, ts te, tw te / val part)) tnew).
      assert (Forall2 (elem_at m1 p) es1 tes1) as FE.
      { unfold es1, tes1. clear - F1 PZ HP. induction F1 as [|e te es tes (A & B & C) F IH]; simpl; constructor; auto.
        split; [exact A|]. split; [exact B|]. unfold tw at 1; simpl. rewrite (val_div HP), C; [reflexivity|lra]. }
      assert (es1 <> []) as NE by discriminate.
      destruct (conformed_sums val HP fl m1 p sl sr es1 tes1 I1 HV NE FE) as (i & m2 & tes2 & E4 & I2 & X2 & LV & PM & A & FL).
      assert (map e_prime (e0 :: new) = map e_prime es1) as -> by (unfold es1; rewrite map_map; reflexivity).
      assert (map e_sub (e0 :: new) = map e_sub es1) as -> by (unfold es1; rewrite map_map; reflexivity).
      assert (map (fun e => pdiv (e_param e) part) (e0 :: new) = map e_param es1) as -> by (unfold es1; rewrite map_map; reflexivity).
      rewrite E4. cbn [bind].
      assert (Forall (fun te => enn te /\ normalized (tp te) /\ normalized (ts te)) tnew) as PE.
      { rewrite Forall_forall in *. intros te Hte. destruct (P1 te Hte) as [[H1 H2] [H3 H4]]. split; [split; [apply PN; auto|]|auto].
        split; apply positive_nonneg; auto. }
      assert (mul_okE fl m2 p (TDec tea) (TDec teb) (Some i, part)) as M.
      { split; [apply FD; split; [exact G1|apply G2; exact PT]|]. exists (TDec tes2). split; auto. split; [|auto]. cbn [snd].
        assert (prod_rel (TDec tea) (TDec teb) (TDec tes2) (val part)) as PR by (eapply prod_decR; eauto; rewrite V1; lra). destruct PR. split; auto.
        - split; [auto|intros; exact Logic.I].
        - apply all_nodes_dec. split; (eapply Permutation_Forall; [exact PM|]); unfold tes1; apply Forall_map.
          + eapply Forall_impl; [|exact PT]. intros te Q. unfold tw at 1; simpl. apply Rdiv_lt_0_compat; auto.
          + eapply Forall_impl; [|exact P1]. intros te [Q _]. exact Q. }
      pose proof (mext_trans _ _ _ _ X1 X2) as X12.
      destruct (FIN _ m2 I2 X12 c1 (cache_okE_ext _ _ _ _ X2 CO1) M) as (c' & E5 & CO'). rewrite E5. cbn [bind]. eexists _, m2, c'. split; [reflexivity|auto].
Qed.
Theorem multiply_exact fl (m : mgr) a b p ta tb : Good fl m -> node_at m a p ta -> node_at m b p tb ->
  (Multiply m a b fl = Abort /\ ~ fine ta tb) \/
  exists r m', Multiply m a b fl = Ok (r, m') /\ Good fl m' /\ mext fl m m' /\ mul_okE fl m' p ta tb r.
Proof.
  intros I Na Nb.
  destruct (mul_exact_spec fl (S a) a b m [] p ta tb) as [[E NF]|(r & m' & c' & E & I' & X & _ & M)]; auto.
  { intros ? ? ? ? []. }
  - left. split; [|exact NF]. unfold Multiply. match goal with |- bind ?x _ = _ => change x with (multiply_with_cache (S a) fl a b (m, [])) end.
    unfold Manager.mcache in *. unfold Manager.mres in *. rewrite E. reflexivity.
  - right. exists r, m'. split; [|auto]. unfold Multiply. match goal with |- bind ?x _ = _ => change x with (multiply_with_cache (S a) fl a b (m, [])) end.
    unfold Manager.mcache in *. unfold Manager.mres in *. rewrite E. reflexivity.
Qed.
End MulE.
