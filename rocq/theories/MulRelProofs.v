(** Products of PSDDs with zero parameters in a build without assertions (C89). *)
From Coq Require Import Reals Lra.
From Verif Require Import Base Param Vtree VtreeProofs Spec SpecProofs Heap Manager HeapProofs SerProofs RepProofs OrderProofs CanonProofs LoadProofs
  MulProofs ReplayProofs TreeProofs MleProofs MulRel.
Local Open Scope R_scope.

(** Some instantiation has a positive weight in both. *)
Definition overlap (t u : ptree) : Prop := exists x, 0 < weight t x * weight u x.
(** No sum that the product divides by is zero: wherever the supports of two nodes meet that are multiplied, their weights overlap. *)
Fixpoint live (t u : ptree) : Prop :=
  match t, u with
  | TTop v _ _, TTop _ _ _ => overlap t u
  | TDec es, TDec fs => (meets t u -> overlap t u) /\
      fold_right (fun e acc => (forall f, In f fs -> live (fst (fst e)) (tp f) /\ (meets (fst (fst e)) (tp f) -> live (snd (fst e)) (ts f))) /\ acc) True es
  | _, _ => True
  end.
Definition elive (e f : telem) : Prop := live (tp e) (tp f) /\ (meets (tp e) (tp f) -> live (ts e) (ts f)).
Lemma live_dec es fs : live (TDec es) (TDec fs) <-> (meets (TDec es) (TDec fs) -> overlap (TDec es) (TDec fs)) /\ Forall (fun e => Forall (elive e) fs) es.
Proof.
  cbn [live]. apply and_iff_compat_l. generalize es. clear es. induction es as [|e es IH]; cbn [fold_right]; [split; auto|].
  rewrite IH, Forall_cons_iff, (Forall_forall (elive e)). reflexivity.
Qed.
(** r * z = a * b, where z may be zero *)
Record prod_rel (ta tb t : ptree) (z : R) : Prop := {
  pr_z : 0 <= z;
  pr_weight : forall x, weight t x * z = weight ta x * weight tb x;
  pr_base : forall x, base t x = base ta x && base tb x;
  pr_nonneg : nonneg t;
  pr_norm : normalized t;
  pr_det : deterministic ta -> deterministic tb -> deterministic t;
}.
Definition enn (te : telem) : Prop := 0 <= tw te /\ nonneg (tp te) /\ nonneg (ts te).

Section MulR.
Context {P : pops} (val : P -> R) (HP : pexact P val).
Notation heap := (heap P). Notation mgr := (mgr P). Notation node := (node P).
Notation node_at := (node_at val). Notation Rep := (Rep val). Notation elem_at := (elem_at val).
Notation Good := (InvT val sums).
Notation mcache := (@mcache P). Notation mres := (@mres P).

Definition mul_okR fl (m : mgr) (p : path) (ta tb : ptree) (r : mres) : Prop :=
  match fst r with
  | None => val (snd r) = 0 /\ forall x, base ta x && base tb x = false
  | Some i => exists t, node_at m i p t /\ prod_rel ta tb t (val (snd r)) /\ flag_of (m_heap m) i = Some fl /\ In i (m_live m)
  end.
Lemma mul_okR_ext fl (m m' : mgr) p ta tb r : mext fl m m' -> mul_okR fl m p ta tb r -> mul_okR fl m' p ta tb r.
Proof.
  intros X. unfold mul_okR. destruct (fst r) as [i|]; auto. intros (t & A & B & C & D). exists t. split; [eapply node_at_ext; eauto|].
  split; auto. split; [eapply flag_of_ext; eauto|]. apply (me_live _ _ _ X); auto.
Qed.
Definition cache_okR fl (m : mgr) (c : mcache) : Prop :=
  forall pos a b r, In ((pos, a, b), r) c -> exists p ta tb, node_at m a p ta /\ node_at m b p tb /\ mul_okR fl m p ta tb r.
Lemma cache_okR_ext fl (m m' : mgr) c : mext fl m m' -> cache_okR fl m c -> cache_okR fl m' c.
Proof.
  intros X H pos a b r Hr. destruct (H _ _ _ _ Hr) as (p & ta & tb & A & B & C). exists p, ta, tb.
  split; [eapply node_at_ext; eauto|]. split; [eapply node_at_ext; eauto|]. eapply mul_okR_ext; eauto.
Qed.
Definition mul_specR fl n (rec : nat -> nat -> mgr * mcache -> res (mres * (mgr * mcache))) : Prop :=
  forall a b m c p ta tb, (a < n)%nat -> Good fl m -> cache_okR fl m c -> node_at m a p ta -> node_at m b p tb -> nonneg ta -> nonneg tb -> live ta tb ->
  exists r m' c', rec a b (m, c) = Ok (r, (m', c')) /\ Good fl m' /\ mext fl m m' /\ cache_okR fl m' c' /\ mul_okR fl m' p ta tb r.
Lemma mul_pairsR fl n rec p : mul_specR fl n rec -> forall pairs tpairs acc part m c,
  Good fl m -> cache_okR fl m c ->
  Forall2 (fun ab tab => elem_at m p (fst ab) (fst tab) /\ elem_at m p (snd ab) (snd tab)) pairs tpairs ->
  (forall ab, In ab pairs -> (e_prime (fst ab) < n /\ e_sub (fst ab) < n)%nat) ->
  Forall (fun tab => elive (fst tab) (snd tab) /\ enn (fst tab) /\ enn (snd tab)) tpairs ->
  exists new part' m' c' tnew, foldM (mul_pair rec) pairs (acc, part, (m, c)) = Ok (acc ++ new, part', (m', c')) /\
    Good fl m' /\ mext fl m m' /\ cache_okR fl m' c' /\ Forall2 (elem_at m' p) new tnew /\
    val part' = val part + rsum tw tnew /\
    (forall x, rsum (wterm x) tnew = rsum (fun ab => wterm x (fst ab) * wterm x (snd ab)) tpairs) /\
    (forall x, existsb (bterm x) tnew = existsb (fun ab => bterm x (fst ab) && bterm x (snd ab)) tpairs) /\
    Forall (fun te => enn te /\ normalized (tp te) /\ normalized (ts te)) tnew /\
    Forall (fun te => exists tab, In tab tpairs /\ forall x, base (tp te) x = pbase tab x) tnew /\
    (ForallOrdPairs pdisj tpairs -> ForallOrdPairs disj tnew) /\
    (Forall (fun tab => edet (fst tab) /\ edet (snd tab)) tpairs -> Forall edet tnew).
Proof.
  intros HS pairs. induction pairs as [|[a b] pairs IH]; intros tpairs acc part m c I CO F HB HPOS.
  - inversion F; subst. exists [], part, m, c, []. rewrite app_nil_r. split; [reflexivity|]. split; auto. split; [apply mext_refl|].
    split; auto. split; [constructor|]. split; [simpl; lra|]. split; [reflexivity|]. split; [reflexivity|].
    do 3 (split; [constructor|]). constructor.
  - inversion F as [|? [ta tb] ? tps [(A1 & A2 & A3) (B1 & B2 & B3)] F']; subst. simpl in A1, A2, A3, B1, B2, B3.
    inversion HPOS as [|? ? ([Sp Ss] & (Wa & Npa & Nsa) & (Wb & Npb & Nsb)) HPOS']; subst. simpl in Sp, Ss, Wa, Npa, Nsa, Wb, Npb, Nsb.
    destruct (HB (a, b) (or_introl eq_refl)) as [La Lb]. simpl in La, Lb.
    destruct (HS _ _ m c _ _ _ La I CO A1 B1 Npa Npb Sp) as (pr & m1 & c1 & E1 & I1 & X1 & CO1 & M1).
    cbn [foldM]. unfold mul_pair at 1. rewrite E1. cbn [bind].
    assert (forall x, bterm x ta && bterm x tb = (base (tp ta) x && base (tp tb) x) && (base (ts ta) x && base (ts tb) x)) as BR.
    { intros x. unfold bterm. destruct (base (tp ta) x), (base (tp tb) x), (base (ts ta) x), (base (ts tb) x); auto. }
    assert (forall m' , mext fl m m' -> Forall2 (fun ab tab => elem_at m' p (fst ab) (fst tab) /\ elem_at m' p (snd ab) (snd tab)) pairs tps) as FX.
    { intros m' X. eapply Forall2_impl_in; [|exact F']. intros ? ? _ _ [U V]. split; eapply elem_at_ext; eauto. }
    assert (forall ab, In ab pairs -> (e_prime (fst ab) < n /\ e_sub (fst ab) < n)%nat) as HB' by (intros; apply HB; right; auto).
    (* the pair contributes nothing *)
    assert (forall m' c', Good fl m' -> mext fl m m' -> cache_okR fl m' c' -> ~ (meets (tp ta) (tp tb) /\ meets (ts ta) (ts tb)) ->
      exists new part' m2 c2 tnew, foldM (mul_pair rec) pairs (acc, part, (m', c')) = Ok (acc ++ new, part', (m2, c2)) /\
    Good fl m2 /\ mext fl m m2 /\ cache_okR fl m2 c2 /\ Forall2 (elem_at m2 p) new tnew /\
    val part' = val part + rsum tw tnew /\
    (forall x, rsum (wterm x) tnew = rsum (fun ab => wterm x (fst ab) * wterm x (snd ab)) ((ta, tb) :: tps)) /\
    (forall x, existsb (bterm x) tnew = existsb (fun ab => bterm x (fst ab) && bterm x (snd ab)) ((ta, tb) :: tps)) /\
    Forall (fun te => enn te /\ normalized (tp te) /\ normalized (ts te)) tnew /\
    Forall (fun te => exists tab, In tab ((ta, tb) :: tps) /\ forall x, base (tp te) x = pbase tab x) tnew /\
    (ForallOrdPairs pdisj ((ta, tb) :: tps) -> ForallOrdPairs disj tnew) /\
    (Forall (fun tab => edet (fst tab) /\ edet (snd tab)) ((ta, tb) :: tps) -> Forall edet tnew)) as SKIP.
    { intros m' c' I' X' CO' NM.
      assert (forall x, bterm x ta && bterm x tb = false) as Z.
      { intros x. rewrite BR. apply andb_false_iff. destruct (base (tp ta) x && base (tp tb) x) eqn:Z1; auto.
        destruct (base (ts ta) x && base (ts tb) x) eqn:Z2; auto. exfalso. apply NM. split; exists x; auto. }
      destruct (IH tps acc part m' c' I' CO' (FX m' X') HB' HPOS')
        as (new & part' & m2 & c2 & tnew & E & I2 & X2 & CO2 & F2 & V2 & W2 & Bs2 & P2 & O2 & D2 & D3).
      exists new, part', m2, c2, tnew. split; auto. split; auto. split; [eapply mext_trans; eauto|]. split; auto. split; auto. split; auto.
      split; [|split; [|split; [|split; [|split]]]]; auto.
      - intros x. simpl. rewrite W2. specialize (Z x). unfold wterm at 3 4.
        assert (weight (tp ta) x * weight (ts ta) x * tw ta * (weight (tp tb) x * weight (ts tb) x * tw tb) = 0) as ->; [|lra].
        rewrite BR in Z.
        destruct (base (tp ta) x) eqn:Z1; [|rewrite (weight_zero_off_base _ _ Z1); lra].
        destruct (base (tp tb) x) eqn:Z2; [|rewrite (weight_zero_off_base _ _ Z2); lra].
        destruct (base (ts ta) x) eqn:Z3; [|rewrite (weight_zero_off_base _ _ Z3); lra].
        destruct (base (ts tb) x) eqn:Z4; [discriminate|rewrite (weight_zero_off_base _ _ Z4); lra].
      - intros x. simpl. rewrite Z. simpl. auto.
      - eapply Forall_impl; [|exact O2]. intros te (tab & Ht & Hb). exists tab. split; [right|]; auto.
      - intros FO. inversion FO; subst. auto.
      - intros FO. inversion FO; subst. auto. }
    unfold mul_okR in M1. destruct (fst pr) as [pi|] eqn:Epi.
    2:{ apply (SKIP m1 c1 I1 X1 CO1). intros [[x Hx] _]. rewrite (proj2 M1) in Hx. discriminate. }
    destruct M1 as (tpi & N1 & PO1 & _).
    assert (meets (tp ta) (tp tb)) as MP.
    { destruct (node_at_conforms val _ _ _ _ (proj1 I1) N1) as (s & Hs & C). destruct (base_sat s) with (t := tpi) as [x Hx]; auto.
      { eapply subtree_nodup; [apply (proj1 I1)|exact Hs]. }
      exists x. rewrite (pr_base _ _ _ _ PO1) in Hx. exact Hx. }
    destruct (HS _ _ m1 c1 _ _ _ Lb I1 CO1 (node_at_ext _ _ _ _ _ _ _ X1 A2) (node_at_ext _ _ _ _ _ _ _ X1 B2) Nsa Nsb (Ss MP)) as (sr & m2 & c2 & E2 & I2 & X2 & CO2 & M2).
    rewrite E2. cbn [bind]. unfold mul_okR in M2.
    pose proof (mext_trans _ _ _ _ X1 X2) as X12. destruct (fst sr) as [si|] eqn:Esi.
    2:{ apply (SKIP m2 c2 I2 X12 CO2). intros [_ [x Hx]]. rewrite (proj2 M2) in Hx. discriminate. }
    destruct M2 as (tsi & N2 & PO2 & _). cbn [bind].
    set (w := pmul (pmul (pmul (e_param b) (e_param a)) (snd pr)) (snd sr)).
    assert (val w = tw tb * tw ta * val (snd pr) * val (snd sr)) as VW.
    { unfold w. rewrite !(val_mul HP), A3, B3. reflexivity. }
    destruct (IH tps (acc ++ [MkE pi si w]) (padd part w) m2 c2 I2 CO2 (FX m2 X12) HB' HPOS')
        as (new & part' & m3 & c3 & tnew & E & I3 & X3 & CO3 & F3 & V3 & W3 & Bs3 & P3 & O3 & D3 & D4).
    exists (MkE pi si w :: new), part', m3, c3, ((tpi, tsi, val w) :: tnew).
    rewrite <- app_assoc in E. split; [exact E|]. split; auto. split; [eapply mext_trans; eauto|]. split; auto. split; [|split; [|split; [|split; [|split; [|split; [|split]]]]]].
    + constructor; auto. split; [|split]; simpl.
      * eapply node_at_ext; [exact X3|]. eapply node_at_ext; [exact X2|]. exact N1.
      * eapply node_at_ext; [exact X3|]. exact N2.
      * reflexivity.
    + rewrite V3, (val_add HP), rsum_cons. change (tw (tpi, tsi, val w)) with (val w). lra.
    + intros x. simpl. rewrite W3. f_equal. unfold wterm, tp at 1, ts at 1, tw at 1; simpl. rewrite VW.
      pose proof (pr_weight _ _ _ _ PO1 x) as Q1. pose proof (pr_weight _ _ _ _ PO2 x) as Q2.
      transitivity ((weight tpi x * val (snd pr)) * (weight tsi x * val (snd sr)) * (tw tb * tw ta)); [ring|]. rewrite Q1, Q2. ring.
    + intros x. simpl. rewrite Bs3. f_equal. rewrite BR. unfold bterm, tp at 1, ts at 1; simpl.
      rewrite (pr_base _ _ _ _ PO1), (pr_base _ _ _ _ PO2). reflexivity.
    + constructor; auto. unfold enn, tp, ts, tw; simpl. split; [split; [|split]|split].
      * rewrite VW. pose proof (pr_z _ _ _ _ PO1). pose proof (pr_z _ _ _ _ PO2).
        apply Rmult_le_pos; [apply Rmult_le_pos; [apply Rmult_le_pos|]|]; auto.
      * apply PO1.
      * apply PO2.
      * apply PO1.
      * apply PO2.
    + constructor.
      * exists (ta, tb). split; [left; auto|]. intros x. unfold tp at 1; simpl. rewrite (pr_base _ _ _ _ PO1). reflexivity.
      * eapply Forall_impl; [|exact O3]. intros te (tab & Ht & Hb). exists tab. split; [right|]; auto.
    + intros FO. inversion FO as [|? ? FO1 FO2]; subst. constructor; auto. rewrite Forall_forall in O3, FO1. apply Forall_forall.
      intros te Hte. destruct (O3 te Hte) as (tab & Ht & Hb). intros x. rewrite Hb. unfold tp; simpl. rewrite (pr_base _ _ _ _ PO1).
      apply (FO1 tab Ht x).
    + intros FO. inversion FO as [|? ? [[FO1 FO2] [FO3 FO4]] FO5]; subst. constructor; auto. split; unfold tp, ts; simpl; [apply PO1|apply PO2]; auto.
Qed.
Lemma cache_pos_okR fl (m : mgr) a p t : Good fl m -> node_at m a p t -> cache_pos_rel m a = Ok (vpos (m_vt m) p).
Proof.
  intros I A. destruct (node_at_conforms val m a p t (proj1 I) A) as (s & Hs & _). unfold cache_pos_rel. rewrite (proj1 A). cbn [get bind].
  pose proof (vpos_lt _ _ _ Hs : (vpos (m_vt m) p < cache_size (m_vt m))%nat) as L. apply Nat.ltb_lt in L. rewrite L. reflexivity.
Qed.
Lemma prod_decR ta tb tnew tes2 z fin : 0 < z ->
  (forall x, rsum (wterm x) tnew = rsum (fun ab => wterm x (fst ab) * wterm x (snd ab)) (list_prod ta tb)) ->
  (forall x, existsb (bterm x) tnew = existsb (fun ab => bterm x (fst ab) && bterm x (snd ab)) (list_prod ta tb)) ->
  Forall (fun te => enn te /\ normalized (tp te) /\ normalized (ts te)) tnew ->
  (ForallOrdPairs pdisj (list_prod ta tb) -> ForallOrdPairs disj tnew) ->
  (Forall (fun tab => edet (fst tab) /\ edet (snd tab)) (list_prod ta tb) -> Forall edet tnew) ->
  z = rsum tw tnew -> fin = map (fun te => (tp te, ts te, tw te / z)) tnew -> Permutation fin tes2 ->
  prod_rel (TDec ta) (TDec tb) (TDec tes2) z.
Proof.
  intros Z W B PS D1 D2 EZ EF PM.
  assert (Forall (fun e => 0 <= tw e) fin) as F1.
  { subst fin. apply Forall_map. eapply Forall_impl; [|exact PS]. intros te ((H & _) & _). unfold tw at 1; simpl.
    apply Rmult_le_pos; auto. left. apply Rinv_0_lt_compat; auto. }
  split; [lra| | | | |].
  - intros x. rewrite !weight_dec_w, <- (rsum_perm _ _ _ PM), <- rsum_prod, <- W. subst fin. rewrite rsum_map.
    rewrite <- rsum_scal_r. apply rsum_ext. intros te _. unfold wterm, tp, ts, tw; simpl. field. lra.
  - intros x. rewrite !base_dec_b, <- (existsb_perm _ _ _ PM), existsb_prod, <- B. subst fin. clear. induction tnew; simpl; auto. rewrite IHtnew. reflexivity.
  - apply all_nodes_dec. split; (eapply Permutation_Forall; [exact PM|auto]). subst fin. apply Forall_map.
    eapply Forall_impl; [|exact PS]. intros te ((_ & H & H') & _). split; auto.
  - apply all_nodes_dec. split.
    + rewrite <- (rsum_perm _ _ _ PM). subst fin. rewrite rsum_map. unfold tw at 1; simpl.
      transitivity (rsum (fun a => tw a * / z) tnew); [apply rsum_ext; intros; reflexivity|]. rewrite rsum_scal_r, <- EZ. field. lra.
    + eapply Permutation_Forall; [exact PM|]. subst fin. apply Forall_map. eapply Forall_impl; [|exact PS]. intros te (_ & H & H'). split; auto.
  - intros Da Db. apply all_nodes_dec in Da as [Da1 Da2], Db as [Db1 Db2]. apply all_nodes_dec. split.
    + eapply FOP_perm; [|exact PM|]. { intros a b H x. rewrite andb_comm. auto. }
      specialize (D1 (FOP_prod _ _ Da1 Db1)). subst fin. clear - D1. induction D1 as [|te l H F IH]; [constructor|]. simpl. constructor; auto.
      apply Forall_map. exact H.
    + eapply Permutation_Forall; [exact PM|]. subst fin. apply Forall_map. apply D2. apply Forall_forall. intros [u v] H. apply in_prod_iff in H as [H1 H2].
      rewrite Forall_forall in Da2, Db2. split; [apply Da2|apply Db2]; auto.
Qed.
Lemma elem_at_repR fl (m : mgr) i nd es p tes : Good fl m -> nth_error (m_heap m) i = Some nd -> n_body nd = BDec es -> n_vt nd = p ->
  Forall2 (ElemRep val (m_heap m)) es tes -> Forall2 (elem_at m p) es tes /\ (forall e, In e es -> (e_prime e < i /\ e_sub e < i)%nat).
Proof.
  intros I E Eb <- F. pose proof (wf_heap _ (proj1 I) _ _ E) as NO. unfold node_ok in NO. rewrite Eb in NO. destruct NO as (_ & _ & FE).
  rewrite Forall_forall in FE. split.
  - eapply Forall2_impl_in; [|exact F]. intros e te He _ (A & B & C). destruct (FE e He) as (_ & _ & V1 & V2). split; [split; auto|]. split; [split; auto|auto].
  - intros e He. destruct (FE e He) as (L1 & L2 & _). auto.
Qed.
Lemma nonneg_elems tes : nonneg (TDec tes) -> Forall enn tes.
Proof.
  intros H. apply all_nodes_dec in H as [H1 H2]. rewrite Forall_forall in *. intros te Hte. split; [apply H1; auto|apply H2; auto].
Qed.
Lemma rsum_zero {A} (f g : A -> R) l : Forall (fun a => 0 <= f a) l -> rsum f l = 0 -> (forall a, f a = 0 -> g a = 0) -> rsum g l = 0.
Proof.
  intros F. induction F as [|a l H F IH]; [reflexivity|]. simpl. intros Z G.
  assert (0 <= rsum f l) by (apply rsum_nonneg; rewrite Forall_forall in F; auto). rewrite (G a), IH; auto; lra.
Qed.
Theorem mul_rel_spec fl : forall n, mul_specR fl n (multiply_with_cache_rel n fl).
Proof.
  induction n as [|n IH]; intros a b m c p ta tb La I CO Na Nb NNa NNb SF; [lia|].
  cbn [multiply_with_cache_rel]. rewrite (cache_pos_okR fl m a p ta I Na). cbn [bind].
  destruct (alookup key_eqb (vpos (m_vt m) p, a, b) c) as [r|] eqn:EL.
  { exists r, m, c. split; auto. split; auto. split; [apply mext_refl|]. split; auto. apply alookup_in in EL.
    destruct (CO _ _ _ _ EL) as (p' & ta' & tb' & Na' & Nb' & M).
    destruct (node_at_fun _ _ _ _ _ _ _ Na Na') as [<- <-]. destruct (node_at_fun _ _ _ _ _ _ _ Nb Nb') as [_ <-]. exact M. }
  clear EL.
  destruct (node_at_conforms val m a p ta (proj1 I) Na) as (s & Hs & Ca).
  destruct (node_at_conforms val m b p tb (proj1 I) Nb) as (s' & Hs' & Cb). assert (s' = s) as -> by congruence. clear Hs'.
  (* common ending: the result is stored *)
  assert (forall r m', Good fl m' -> mext fl m m' -> forall c0, cache_okR fl m' c0 -> mul_okR fl m' p ta tb r ->
    exists c', cache_update_rel m' c0 a b r = Ok c' /\ cache_okR fl m' c') as FIN.
  { intros r m' I' X c0 CO0 M. unfold cache_update_rel. rewrite (cache_pos_okR fl m' a p ta I' (node_at_ext _ _ _ _ _ _ _ X Na)). cbn [bind].
    eexists. split; [reflexivity|]. intros pos a' b' r' [H|H]; [|eapply CO0; eauto]. injection H as <- <- <- <-.
    exists p, ta, tb. split; [|split]; auto; eapply node_at_ext; eauto. }
  pose proof Na as [Va Ra]. pose proof Nb as [Vb Rb].
  inversion Ra as [? na la Ea Eba|? na va pta pfa Ea Eba|? na ea tea Ea Eba Fa]; subst;
  inversion Rb as [? nb lb Eb Ebb|? nb vb ptb pfb Eb Ebb|? nb eb teb Eb Ebb Fb]; subst;
  (destruct s as [v|sl sr]; simpl in Ca, Cb; try contradiction); rewrite Ea, Eb; cbn [get bind];
  unfold vt_of in Va, Vb; rewrite Ea in Va; rewrite Eb in Vb; simpl in Va, Vb; injection Va as Va; injection Vb as Vb;
  rewrite Eba, Ebb.
  - (* literal, literal *)
    destruct (Z.eqb la lb) eqn:EZ.
    + apply Z.eqb_eq in EZ. subst lb.
      assert (subtree (m_vt m) p = Some (Leaf (lit_var la))) as S1 by (unfold lit_var; rewrite Ca; auto).
      destruct (literalT_spec val HP sums sums_fun fl m la p I S1) as (i & m' & E1 & I' & X & LV & A & FL). rewrite E1. cbn [bind].
      assert (mul_okR fl m' p (TLit la) (TLit la) (Some i, pone)) as M.
      { exists (TLit la). split; auto. split; [|auto]. cbn [snd]. rewrite (val_one HP). split; try lra; auto using normalized_lit; simpl.
        - intros x. destruct (lit_sat la x); lra.
        - intros x. destruct (lit_sat la x); auto. }
      destruct (FIN _ m' I' X c (cache_okR_ext _ _ _ _ X CO) M) as (c' & E2 & CO'). rewrite E2. cbn [bind]. eauto 10.
    + assert (mul_okR fl m p (TLit la) (TLit lb) (None, pzero)) as M.
      { split; [apply (val_zero HP)|]. intros x. simpl. unfold lit_sat. rewrite Ca, Cb. apply Z.eqb_neq in EZ.
        destruct (Z.ltb_spec 0 la), (Z.ltb_spec 0 lb), (x v); simpl; auto; exfalso; lia. }
      destruct (FIN _ m I (mext_refl _ _) c CO M) as (c' & E2 & CO'). rewrite E2. cbn [bind].
      exists (None, pzero), m, c'. split; auto. split; auto. split; [apply mext_refl|]. auto.
  - (* literal, top *)
    subst vb.
    assert (subtree (m_vt m) p = Some (Leaf (lit_var la))) as S1 by (unfold lit_var; rewrite Ca; auto).
    destruct (literalT_spec val HP sums sums_fun fl m la p I S1) as (i & m' & E1 & I' & X & LV & A & FL). rewrite E1. cbn [bind].
    assert (mul_okR fl m' p (TLit la) (TTop v (val ptb) (val pfb)) (Some i, if lit_sign la then ptb else pfb)) as M.
    { exists (TLit la). split; auto. split; [|auto]. cbn [snd]. split; auto using normalized_lit; simpl.
      - apply (val_nonneg HP).
      - intros x. unfold lit_sat, lit_sign. rewrite Ca. destruct (Z.ltb 0 la), (x v); simpl; lra.
      - intros x. rewrite andb_true_r; auto. }
    destruct (FIN _ m' I' X c (cache_okR_ext _ _ _ _ X CO) M) as (c' & E2 & CO'). rewrite E2. cbn [bind]. eauto 10.
  - (* top, literal *)
    subst va.
    assert (subtree (m_vt m) p = Some (Leaf (lit_var lb))) as S1 by (unfold lit_var; rewrite Cb; auto).
    destruct (literalT_spec val HP sums sums_fun fl m lb p I S1) as (i & m' & E1 & I' & X & LV & A & FL). rewrite E1. cbn [bind].
    assert (mul_okR fl m' p (TTop v (val pta) (val pfa)) (TLit lb) (Some i, if lit_sign lb then pta else pfa)) as M.
    { exists (TLit lb). split; auto. split; [|auto]. cbn [snd]. split; auto using normalized_lit; simpl.
      - apply (val_nonneg HP).
      - intros x. unfold lit_sat, lit_sign. rewrite Cb. destruct (Z.ltb 0 lb), (x v); simpl; lra. }
    destruct (FIN _ m' I' X c (cache_okR_ext _ _ _ _ X CO) M) as (c' & E2 & CO'). rewrite E2. cbn [bind]. eauto 10.
  - (* top, top *)
    subst va vb.
    set (z := padd (pmul pta ptb) (pmul pfa pfb)).
    assert (0 <= val pta * val ptb) as Z1 by (apply Rmult_le_pos; apply (val_nonneg HP)).
    assert (0 <= val pfa * val pfb) as Z2 by (apply Rmult_le_pos; apply (val_nonneg HP)).
    assert (val z = val pta * val ptb + val pfa * val pfb) as VZ by (unfold z; rewrite (val_add HP), !(val_mul HP); reflexivity).
    assert (0 < val z) as PZ. { destruct SF as [x Hx]. simpl in Hx. rewrite VZ. destruct (x v); lra. }
    assert (val z <> 0) as NZ by lra.
    assert (val (pdiv (pmul pta ptb) z) = val pta * val ptb / val z) as V1 by (rewrite (val_div HP), (val_mul HP); auto).
    assert (val (pdiv (pmul pfa pfb) z) = val pfa * val pfb / val z) as V2 by (rewrite (val_div HP), (val_mul HP); auto).
    assert (0 <= val pta * val ptb / val z) as Z3 by (rewrite <- V1; apply (val_nonneg HP)).
    assert (0 <= val pfa * val pfb / val z) as Z4 by (rewrite <- V2; apply (val_nonneg HP)).
    assert (val pta * val ptb / val z + val pfa * val pfb / val z = 1) as Z5 by (rewrite VZ in *; field; auto).
    destruct (topT_spec val HP sums sums_fun fl m v (pdiv (pmul pta ptb) z) (pdiv (pmul pfa pfb) z) p I Hs) as (i & m' & E1 & I' & X & LV & A & FL).
    { unfold sums. rewrite V1, V2. auto. }
    rewrite E1. cbn [bind].
    assert (mul_okR fl m' p (TTop v (val pta) (val pfa)) (TTop v (val ptb) (val pfb)) (Some i, z)) as M.
    { eexists. split; [exact A|]. split; [|auto]. cbn [snd]. rewrite V1, V2. split; simpl; auto.
      - lra.
      - intros x. destruct (x v); field; auto.
      - unfold nonneg; simpl; auto.
      - unfold normalized; simpl; auto. }
    destruct (FIN _ m' I' X c (cache_okR_ext _ _ _ _ X CO) M) as (c' & E4 & CO'). rewrite E4. cbn [bind]. eauto 10.
  - (* decision, decision *)
    destruct (elem_at_repR fl m a na ea p tea I Ea Eba Va Fa) as [Fa' Ba].
    destruct (elem_at_repR fl m b nb eb p teb I Eb Ebb Vb Fb) as [Fb' _].
    apply live_dec in SF as [OV SF]. pose proof (nonneg_elems _ NNa) as Ea'. pose proof (nonneg_elems _ NNb) as Eb'.
    destruct (mul_pairsR fl n (multiply_with_cache_rel n fl) p IH (list_prod ea eb) (list_prod tea teb) [] pzero m c I CO)
      as (new & part & m1 & c1 & tnew & E1 & I1 & X1 & CO1 & F1 & V1 & W1 & Bs1 & P1 & _ & D1 & D2).
    { apply Forall2_list_prod; auto. }
    { intros [u v] H. apply in_prod_iff in H as [H _]. destruct (Ba u H). simpl. lia. }
    { apply Forall_forall. intros [u v] H. apply in_prod_iff in H as [H1 H2]. rewrite Forall_forall in SF, Ea', Eb'. specialize (SF u H1). rewrite Forall_forall in SF. simpl. auto. }
    rewrite E1. cbn [bind]. rewrite app_nil_l. rewrite (val_zero HP) in V1.
    destruct new as [|e0 new].
    + inversion F1; subst tnew.
      assert (mul_okR fl m1 p (TDec tea) (TDec teb) (None, pzero)) as M.
      { split; [apply (val_zero HP)|]. intros x. rewrite !base_dec_b, existsb_prod, <- Bs1. reflexivity. }
      destruct (FIN _ m1 I1 X1 c1 CO1 M) as (c' & E4 & CO'). rewrite E4. cbn [bind]. eexists _, m1, c'. split; [reflexivity|auto].
    + assert (Forall (fun te => 0 <= tw te) tnew) as PT by (eapply Forall_impl; [|exact P1]; intros te ((H & _) & _); auto).
      assert (subtree (m_vt m1) p = Some (VNode sl sr)) as HV by (rewrite (me_vt _ _ _ X1); auto).
      assert (meets (TDec tea) (TDec teb)) as MT.
      { inversion F1 as [|? te0 ? tn (N1 & N2 & _) F1']; subst.
        destruct (node_at_conforms val _ _ _ _ (proj1 I1) N1) as (s1 & H1 & C1). destruct (node_at_conforms val _ _ _ _ (proj1 I1) N2) as (s2 & H2 & C2).
        assert (s1 = sl) as -> by (cbn [subtree] in H1; rewrite HV in H1; simpl in H1; congruence).
        assert (s2 = sr) as -> by (cbn [subtree] in H2; rewrite HV in H2; simpl in H2; congruence).
        destruct (base_sat (VNode sl sr)) with (t := TDec [te0]) as [x Hx].
        { eapply subtree_nodup; [apply (proj1 I1)|exact HV]. }
        { simpl. split; [discriminate|]. repeat split; auto. }
        exists x. rewrite !base_dec_b, existsb_prod, <- Bs1. rewrite base_dec_b in Hx. simpl in *. destruct (bterm x te0); [auto|discriminate]. }
      assert (0 < val part) as PZ.
      { assert (0 <= rsum tw tnew) as NN by (apply rsum_nonneg; rewrite Forall_forall in PT; auto). destruct (OV MT) as [x Hx]. rewrite !weight_dec_w, <- rsum_prod, <- W1 in Hx.
        destruct (Req_dec (rsum tw tnew) 0) as [Q|Q]; [|lra]. rewrite (rsum_zero tw (wterm x) tnew PT Q) in Hx; [lra|].
        intros te Hte. unfold wterm. rewrite Hte. lra. }
      set (es1 := map (fun e => MkE (e_prime e) (e_sub e) (pdiv (e_param e) part)) (e0 :: new)).
      set (tes1 := map (fun te : telem => (tp te, ts te, tw te / val part)) tnew).
      assert (Forall2 (elem_at m1 p) es1 tes1) as FE.
      { unfold es1, tes1. clear - F1 PZ HP. induction F1 as [|e te es tes (A & B & C) F IH]; simpl; constructor; auto.
        split; [exact A|]. split; [exact B|]. unfold tw at 1; simpl. rewrite (val_div HP), C; [reflexivity|lra]. }
      assert (es1 <> []) as NE by discriminate.
      destruct (conformed_sums val HP fl m1 p sl sr es1 tes1 I1 HV NE FE) as (i & m2 & tes2 & E4 & I2 & X2 & LV & PM & A & FL).
      assert (map e_prime (e0 :: new) = map e_prime es1) as -> by (unfold es1; rewrite map_map; reflexivity).
      assert (map e_sub (e0 :: new) = map e_sub es1) as -> by (unfold es1; rewrite map_map; reflexivity).
      assert (map (fun e => pdiv (e_param e) part) (e0 :: new) = map e_param es1) as -> by (unfold es1; rewrite map_map; reflexivity).
      rewrite E4. cbn [bind].
      assert (mul_okR fl m2 p (TDec tea) (TDec teb) (Some i, part)) as M.
      { exists (TDec tes2). split; auto. split; [|auto]. cbn [snd]. eapply prod_decR; eauto. rewrite V1. lra. }
      pose proof (mext_trans _ _ _ _ X1 X2) as X12.
      destruct (FIN _ m2 I2 X12 c1 (cache_okR_ext _ _ _ _ X2 CO1) M) as (c' & E5 & CO'). rewrite E5. cbn [bind]. eexists _, m2, c'. split; [reflexivity|auto].
Qed.
Theorem multiply_rel fl (m : mgr) a b p ta tb : Good fl m -> node_at m a p ta -> node_at m b p tb -> nonneg ta -> nonneg tb -> live ta tb ->
  exists r m', MultiplyRel m a b fl = Ok (r, m') /\ Good fl m' /\ mext fl m m' /\ mul_okR fl m' p ta tb r.
Proof.
  intros I Na Nb Pa Pb SF. destruct (mul_rel_spec fl (S a) a b m [] p ta tb) as (r & m' & c' & E & I' & X & _ & M); auto.
  { intros ? ? ? ? []. }
  exists r, m'. split; [|auto]. unfold MultiplyRel. match goal with |- bind ?x _ = _ => change x with (multiply_with_cache_rel (S a) fl a b (m, [])) end.
  unfold Manager.mcache in *. unfold Manager.mres in *. rewrite E. reflexivity.
Qed.
End MulR.
