(** Multiply with rounded arithmetic (C62). *)
From Coq Require Import Reals Lra Psatz.
From Verif Require Import Base Param ParamProofs Vtree VtreeProofs Spec SpecProofs Heap Manager HeapProofs SerProofs RepProofs LoadProofs
  MulProofs TreeProofs Query QueryProofs MpeProofs SampleProofs Round RoundProofs RoundEval RoundMarg RoundRep.
Local Open Scope R_scope.

(** the most elements of a decision node *)
Fixpoint width (t : ptree) : nat :=
  match t with
  | TLit _ | TTop _ _ _ => 0
  | TDec es => Nat.max (length es) (fold_right Nat.max 0 (map (fun e => Nat.max (width (fst (fst e))) (width (snd (fst e)))) es))
  end%nat.
Lemma width_elem es f : In f es -> (width (tp f) <= width (TDec es) /\ width (ts f) <= width (TDec es))%nat.
Proof.
  intros H. pose proof (max_in (fun e : telem => Nat.max (width (fst (fst e))) (width (snd (fst e)))) es f H) as K. simpl in K. unfold tp, ts. cbn [width]. lia.
Qed.
Lemma width_len es : (length es <= width (TDec es))%nat.
Proof. cbn [width]. lia. Qed.
Lemma range_div a b x y : range a x -> range b y -> y <> 0 -> range (a + b) (x / y).
Proof.
  intros Rx [->|[B1 B2]] N; [congruence|]. unfold Rdiv. apply range_mul; auto. right. pose proof (exp_pos (- b)). pose proof (exp_pos b). split.
  - rewrite exp_Ropp. apply Rinv_le_contravar; lra.
  - rewrite <- (Ropp_involutive b) at 1. rewrite exp_Ropp. apply Rinv_le_contravar; lra.
Qed.
Lemma close_div_back e w z p : 0 < z -> close e (w / z) p -> close e w (p * z).
Proof. intros Z C. replace w with (w / z * z) by (field; lra). apply close_mul_r; [lra|auto]. Qed.

Section RoundMul.
Context {P : pops} (val : P -> R) (B e d dl : R) (HP : pround P val B e d) (HC : pcompare P val B d) (DL : 0 <= dl).
Context (wa wb : nat) (HK : INR (wa * wb + 2) * e <= dl).
Notation heap := (heap P). Notation mgr := (mgr P). Notation node := (node P).
Notation node_at := (node_at val). Notation Rep := (Rep val). Notation elem_at := (elem_at val).
Notation Good := (InvF val B dl). Notation Out := (rnear_at val d dl). Notation elem_out := (elem_rnear val d dl).
Definition slack (n : nat) : R := INR n * (1 + INR (wa * wb + 4) * e).
Lemma slack_nonneg n : 0 <= slack n.
Proof. pose proof (ke_nonneg val B e d HP (wa * wb + 4)). pose proof (pos_INR n). unfold slack. apply Rmult_le_pos; lra. Qed.
Lemma slack_node l r : slack (vsize (VNode l r)) = slack (vsize l) + slack (vsize r) + (1 + INR (wa * wb + 4) * e).
Proof. unfold slack. cbn [vsize]. rewrite !plus_INR. change (INR 1) with 1. ring. Qed.
Definition fit (n : nat) (ta tb : ptree) : Prop :=
  positive ta /\ positive tb /\ (width ta <= wa)%nat /\ (width tb <= wb)%nat /\ 2 * (mag ta + mag tb) + 2 * slack n <= B.

Record prod_near (n : nat) (ta tb t : ptree) (z : R) : Prop := {
  pn_z : 0 < z;
  pn_range : range (mag ta + mag tb + slack n) z;
  pn_weight : forall x, close (INR (4 * n) * e) (weight ta x * weight tb x) (weight t x * z);
  pn_base : forall x, base t x = base ta x && base tb x;
  pn_pos : positive t;
  pn_norm : norm_near dl t;
  pn_det : deterministic ta -> deterministic tb -> deterministic t;
}.
Definition mul_okR fl (m : mgr) (p : path) (s : vtree) (ta tb : ptree) (r : mres) : Prop :=
  match fst r with
  | None => val (snd r) = 0 /\ forall x, base ta x && base tb x = false
  | Some i => exists t, Out m i p t /\ prod_near (vsize s) ta tb t (val (snd r)) /\ flag_of (m_heap m) i = Some fl /\ In i (m_live m)
  end.
Lemma mul_okR_ext fl (m m' : mgr) p s ta tb r : mext fl m m' -> mul_okR fl m p s ta tb r -> mul_okR fl m' p s ta tb r.
Proof.
  intros X. unfold mul_okR. destruct (fst r) as [i|]; auto. intros (t & A & C & F & D). exists t. split; [eapply rnear_at_ext; eauto|].
  split; auto. split; [eapply flag_of_ext; eauto|]. apply (me_live _ _ _ X); auto.
Qed.
Definition cache_okR fl (m : mgr) (c : mcache) : Prop :=
  forall pos a b r, In ((pos, a, b), r) c -> exists p s ta tb, subtree (m_vt m) p = Some s /\ node_at m a p ta /\ node_at m b p tb /\ mul_okR fl m p s ta tb r.
Lemma cache_okR_ext fl (m m' : mgr) c : mext fl m m' -> cache_okR fl m c -> cache_okR fl m' c.
Proof.
  intros X H pos a b r Hr. destruct (H _ _ _ _ Hr) as (p & s & ta & tb & S & A & A' & C). exists p, s, ta, tb.
  split; [rewrite (me_vt _ _ _ X); auto|]. split; [eapply node_at_ext; eauto|]. split; [eapply node_at_ext; eauto|]. eapply mul_okR_ext; eauto.
Qed.
Definition mul_specR fl n (rec : nat -> nat -> mgr * mcache -> res (mres * (mgr * mcache))) : Prop :=
  forall a b m c p s ta tb, (a < n)%nat -> Good fl m -> cache_okR fl m c -> subtree (m_vt m) p = Some s -> node_at m a p ta -> node_at m b p tb -> fit (vsize s) ta tb ->
  exists r m' c', rec a b (m, c) = Ok (r, (m', c')) /\ Good fl m' /\ mext fl m m' /\ cache_okR fl m' c' /\ mul_okR fl m' p s ta tb r.

(** a product in range *)
Lemma mul_step a b M1 M2 : range M1 (val a) -> range M2 (val b) -> 0 <= M1 -> 0 <= M2 -> M1 + M2 <= B ->
  close e (val a * val b) (val (pmul a b)) /\ range (M1 + M2 + e) (val (pmul a b)).
Proof.
  intros Ra Rb P1 P2 HB. pose proof (range_mul _ _ _ _ Ra Rb) as R. assert (close e (val a * val b) (val (pmul a b))) as C.
  { apply (rd_mul HP); [apply (range_weaken M1)|apply (range_weaken M2)|apply (range_weaken (M1 + M2))]; auto; lra. }
  split; auto. eapply range_close; eauto. apply (rd_nonneg HP).
Qed.
(** the weight of an element *)
Lemma weight_step a b zp zs Ma Mb Mp Ms : range Ma (val a) -> range Mb (val b) -> range Mp (val zp) -> range Ms (val zs) ->
  0 <= Ma -> 0 <= Mb -> 0 <= Mp -> 0 <= Ms -> Ma + Mb + Mp + Ms + 3 * e <= B ->
  close (3 * e) (val b * val a * val zp * val zs) (val (pmul (pmul (pmul b a) zp) zs)) /\
  range (Ma + Mb + Mp + Ms + 3 * e) (val (pmul (pmul (pmul b a) zp) zs)).
Proof.
  intros Ra Rb Rp Rs P1 P2 P3 P4 HB. pose proof (rd_e HP) as E0. pose proof (rd_nonneg HP) as V0.
  destruct (mul_step b a Mb Ma) as [C1 R1]; auto; try lra.
  destruct (mul_step (pmul b a) zp (Mb + Ma + e) Mp) as [C2 R2]; auto; try lra.
  destruct (mul_step (pmul (pmul b a) zp) zs (Mb + Ma + e + Mp + e) Ms) as [C3 R3]; auto; try lra.
  split; [|eapply range_weaken; [|exact R3]; lra].
  replace (3 * e) with (e + e + e) by ring. eapply close_trans; [|exact C3]. apply close_mul_r; auto. eapply close_trans; [|exact C2]. apply close_mul_r; auto.
Qed.
(** what the inner loops need of a pair of elements *)
Definition pair_fit (M0 : R) (tab : telem * telem) : Prop :=
  epos (fst tab) /\ epos (snd tab) /\ (width (tp (fst tab)) <= wa /\ width (ts (fst tab)) <= wa /\ width (tp (snd tab)) <= wb /\ width (ts (snd tab)) <= wb)%nat /\
  mag (tp (fst tab)) + mag (ts (fst tab)) + lg (tw (fst tab)) + (mag (tp (snd tab)) + mag (ts (snd tab)) + lg (tw (snd tab))) <= M0.
Lemma mul_pairsR fl n rec p sl sr M0 (MB : 2 * M0 + 2 * (slack (vsize sl) + slack (vsize sr)) + 3 * e <= B) : mul_specR fl n rec -> forall pairs tpairs acc part m c,
  Good fl m -> cache_okR fl m c -> subtree (m_vt m) (false :: p) = Some sl -> subtree (m_vt m) (true :: p) = Some sr ->
  Forall2 (fun ab tab => elem_at m p (fst ab) (fst tab) /\ elem_at m p (snd ab) (snd tab)) pairs tpairs ->
  (forall ab, In ab pairs -> (e_prime (fst ab) < n /\ e_sub (fst ab) < n)%nat) ->
  Forall (pair_fit M0) tpairs ->
  exists new part' m' c' tnew, foldM (mul_pair rec) pairs (acc, part, (m, c)) = Ok (acc ++ new, part', (m', c')) /\
    Good fl m' /\ mext fl m m' /\ cache_okR fl m' c' /\ Forall2 (elem_out m' p) new tnew /\
    part' = fold_left (fun s f => padd s (e_param f)) new part /\ (length tnew <= length tpairs)%nat /\
    (forall x, close (INR (4 * (vsize sl + vsize sr) + 3) * e) (rsum (fun ab => wterm x (fst ab) * wterm x (snd ab)) tpairs) (rsum (wterm x) tnew)) /\
    (forall x, existsb (bterm x) tnew = existsb (fun ab => bterm x (fst ab) && bterm x (snd ab)) tpairs) /\
    Forall (fun te => epos te /\ norm_near dl (tp te) /\ norm_near dl (ts te) /\ range (M0 + slack (vsize sl) + slack (vsize sr) + 3 * e) (tw te)) tnew /\
    Forall (fun te => exists tab, In tab tpairs /\ forall x, base (tp te) x = pbase tab x) tnew /\
    (ForallOrdPairs pdisj tpairs -> ForallOrdPairs disj tnew) /\
    (Forall (fun tab => edet (fst tab) /\ edet (snd tab)) tpairs -> Forall edet tnew).
Proof.
  intros HS pairs. induction pairs as [|[a b] pairs IH]; intros tpairs acc part m c I CO Sl Sr F HB HPOS.
  - inversion F; subst. exists [], part, m, c, []. rewrite app_nil_r. split; [reflexivity|]. split; auto. split; [apply mext_refl|].
    split; auto. split; [constructor|]. split; [reflexivity|]. split; [simpl; lia|]. split; [intros x; simpl; apply close_refl; [apply (ke_nonneg val B e d HP)|lra]|].
    split; [reflexivity|]. repeat split; constructor.
  - inversion F as [|? [ta tb] ? tps [(A1 & A2 & A3) (B1 & B2 & B3)] F']; subst. simpl in A1, A2, A3, B1, B2, B3.
    inversion HPOS as [|? ? ((Wa & Pa1 & Pa2) & (Wb & Pb1 & Pb2) & (Q1 & Q2 & Q3 & Q4) & HM) HPOS']; subst. simpl in Wa, Pa1, Pa2, Wb, Pb1, Pb2, Q1, Q2, Q3, Q4, HM.
    destruct (HB (a, b) (or_introl eq_refl)) as [La Lb]. simpl in La, Lb.
    pose proof (mag_nonneg (tp ta)) as G1. pose proof (mag_nonneg (ts ta)) as G2. pose proof (mag_nonneg (tp tb)) as G3. pose proof (mag_nonneg (ts tb)) as G4.
    pose proof (lg_nonneg (tw ta)) as G5. pose proof (lg_nonneg (tw tb)) as G6. pose proof (slack_nonneg (vsize sl)) as G7. pose proof (slack_nonneg (vsize sr)) as G8.
    pose proof (rd_e HP) as E0. pose proof (rd_nonneg HP) as V0.
    assert (fit (vsize sl) (tp ta) (tp tb)) as FTl by (repeat (split; auto); lra).
    assert (fit (vsize sr) (ts ta) (ts tb)) as FTr by (repeat (split; auto); lra).
    destruct (HS _ _ m c _ _ _ _ La I CO Sl A1 B1 FTl) as (pr & m1 & c1 & E1 & I1 & X1 & CO1 & M1).
    cbn [foldM]. unfold mul_pair at 1. rewrite E1. cbn [bind].
    assert (forall x, bterm x ta && bterm x tb = (base (tp ta) x && base (tp tb) x) && (base (ts ta) x && base (ts tb) x)) as BR.
    { intros x. unfold bterm. destruct (base (tp ta) x), (base (tp tb) x), (base (ts ta) x), (base (ts tb) x); auto. }
    assert (forall m' , mext fl m m' -> Forall2 (fun ab tab => elem_at m' p (fst ab) (fst tab) /\ elem_at m' p (snd ab) (snd tab)) pairs tps) as FX.
    { intros m' X. eapply Forall2_impl_in; [|exact F']. intros ? ? _ _ [U V]. split; eapply elem_at_ext; eauto. }
    assert (forall ab, In ab pairs -> (e_prime (fst ab) < n /\ e_sub (fst ab) < n)%nat) as HB' by (intros; apply HB; right; auto).
    (* the pair contributes nothing *)
    assert (forall m' c', Good fl m' -> mext fl m m' -> cache_okR fl m' c' -> (forall x, bterm x ta && bterm x tb = false) ->
      exists new part' m2 c2 tnew, foldM (mul_pair rec) pairs (acc, part, (m', c')) = Ok (acc ++ new, part', (m2, c2)) /\
    Good fl m2 /\ mext fl m m2 /\ cache_okR fl m2 c2 /\ Forall2 (elem_out m2 p) new tnew /\
    part' = fold_left (fun s f => padd s (e_param f)) new part /\ (length tnew <= length ((ta, tb) :: tps))%nat /\
    (forall x, close (INR (4 * (vsize sl + vsize sr) + 3) * e) (rsum (fun ab => wterm x (fst ab) * wterm x (snd ab)) ((ta, tb) :: tps)) (rsum (wterm x) tnew)) /\
    (forall x, existsb (bterm x) tnew = existsb (fun ab => bterm x (fst ab) && bterm x (snd ab)) ((ta, tb) :: tps)) /\
    Forall (fun te => epos te /\ norm_near dl (tp te) /\ norm_near dl (ts te) /\ range (M0 + slack (vsize sl) + slack (vsize sr) + 3 * e) (tw te)) tnew /\
    Forall (fun te => exists tab, In tab ((ta, tb) :: tps) /\ forall x, base (tp te) x = pbase tab x) tnew /\
    (ForallOrdPairs pdisj ((ta, tb) :: tps) -> ForallOrdPairs disj tnew) /\
    (Forall (fun tab => edet (fst tab) /\ edet (snd tab)) ((ta, tb) :: tps) -> Forall edet tnew)) as SKIP.
    { intros m' c' I' X' CO' Z. destruct (IH tps acc part m' c' I' CO') as (new & part' & m2 & c2 & tnew & E & I2 & X2 & CO2 & F2 & V2 & LN & W2 & Bs2 & P2 & O2 & D2 & D3); auto.
      { rewrite (me_vt _ _ _ X'); auto. } { rewrite (me_vt _ _ _ X'); auto. }
      exists new, part', m2, c2, tnew. split; auto. split; auto. split; [eapply mext_trans; eauto|]. split; auto. split; auto. split; auto. split; [simpl; lia|].
      split; [|split; [|split; [|split; [|split]]]]; auto.
      - intros x. rewrite rsum_cons. cbn [fst snd]. specialize (Z x). 
        assert (wterm x ta * wterm x tb = 0) as ->; [|rewrite Rplus_0_l; apply W2].
        unfold wterm. rewrite BR in Z.
        destruct (base (tp ta) x) eqn:Z1; [|rewrite (weight_zero_off_base _ _ Z1); lra].
        destruct (base (tp tb) x) eqn:Z2; [|rewrite (weight_zero_off_base _ _ Z2); lra].
        destruct (base (ts ta) x) eqn:Z3; [|rewrite (weight_zero_off_base _ _ Z3); lra].
        destruct (base (ts tb) x) eqn:Z4; [discriminate|rewrite (weight_zero_off_base _ _ Z4); lra].
      - intros x. simpl. rewrite Z. simpl. auto.
      - eapply Forall_impl; [|exact O2]. intros te (tab & Ht & Hb). exists tab. split; [right|]; auto.
      - intros FO. inversion FO; subst. auto.
      - intros FO. inversion FO; subst. auto. }
    unfold mul_okR in M1. destruct (fst pr) as [pi|] eqn:Epi.
    2:{ apply (SKIP m1 c1 I1 X1 CO1). intros x. rewrite BR, (proj2 M1). reflexivity. }
    destruct M1 as (tpi & N1 & PO1 & _).
    assert (subtree (m_vt m1) (true :: p) = Some sr) as Sr1 by (rewrite (me_vt _ _ _ X1); auto).
    destruct (HS _ _ m1 c1 _ _ _ _ Lb I1 CO1 Sr1 (node_at_ext _ _ _ _ _ _ _ X1 A2) (node_at_ext _ _ _ _ _ _ _ X1 B2) FTr) as (rr & m2 & c2 & E2 & I2 & X2 & CO2 & M2).
    rewrite E2. cbn [bind]. unfold mul_okR in M2. 
    pose proof (mext_trans _ _ _ _ X1 X2) as X12. destruct (fst rr) as [si|] eqn:Esi.
    2:{ apply (SKIP m2 c2 I2 X12 CO2). intros x. rewrite BR, (proj2 M2), andb_false_r. reflexivity. }
    destruct M2 as (tsi & N2 & PO2 & _). cbn [bind].
    set (w := pmul (pmul (pmul (e_param b) (e_param a)) (snd pr)) (snd rr)).
    destruct (weight_step (e_param a) (e_param b) (snd pr) (snd rr) (lg (tw ta)) (lg (tw tb)) (mag (tp ta) + mag (tp tb) + slack (vsize sl)) (mag (ts ta) + mag (ts tb) + slack (vsize sr))) as [CW RW].
    { rewrite A3. apply range_lg, V0. } { rewrite B3. apply range_lg, V0. } { apply PO1. } { apply PO2. } { lra. } { lra. } { lra. } { lra. } { lra. }
    fold w in CW, RW. rewrite <- A3, <- B3 in CW.
    assert (0 < val w) as W0.
    { apply (close_pos _ _ _ CW). pose proof (pn_z _ _ _ _ _ PO1). pose proof (pn_z _ _ _ _ _ PO2).
      apply Rmult_lt_0_compat; [apply Rmult_lt_0_compat; [apply Rmult_lt_0_compat|]|]; auto. }
    destruct (IH tps (acc ++ [MkE pi si w]) (padd part w) m2 c2 I2 CO2)
        as (new & part' & m3 & c3 & tnew & E & I3 & X3 & CO3 & F3 & V3 & LN & W3 & Bs3 & P3 & O3 & D3 & D4); auto.
    { rewrite (me_vt _ _ _ X12); auto. } { rewrite (me_vt _ _ _ X12); auto. }
    exists (MkE pi si w :: new), part', m3, c3, ((tpi, tsi, val w) :: tnew).
    rewrite <- app_assoc in E. split; [exact E|]. split; auto. split; [eapply mext_trans; eauto|]. split; auto. split; [|split; [|split; [|split; [|split; [|split; [|split; [|split]]]]]]].
    + constructor; auto. split; [|split]; simpl.
      * eapply rnear_at_ext; [exact X3|]. eapply rnear_at_ext; [exact X2|]. exact N1.
      * eapply rnear_at_ext; [exact X3|]. exact N2.
      * reflexivity.
    + rewrite V3. reflexivity.
    + simpl. lia.
    + intros x. rewrite !rsum_cons. cbn [fst snd]. apply close_add; [|apply W3]. unfold wterm, tp at 3, ts at 3, tw at 3; cbn [fst snd].
      pose proof (pn_weight _ _ _ _ _ PO1 x) as H1. pose proof (pn_weight _ _ _ _ _ PO2 x) as H2.
      pose proof (weight_nonneg _ x (positive_nonneg _ Pa1)). pose proof (weight_nonneg _ x (positive_nonneg _ Pa2)). pose proof (weight_nonneg _ x (positive_nonneg _ Pb1)). pose proof (weight_nonneg _ x (positive_nonneg _ Pb2)).
      pose proof (weight_nonneg _ x (positive_nonneg _ (pn_pos _ _ _ _ _ PO1))). pose proof (weight_nonneg _ x (positive_nonneg _ (pn_pos _ _ _ _ _ PO2))).
      assert (INR (4 * (vsize sl + vsize sr) + 3) * e = INR (4 * vsize sl) * e + INR (4 * vsize sr) * e + 3 * e) as -> by (rewrite Nat.mul_add_distr_l, !plus_INR; simpl (INR 3); ring).
      replace (weight (tp ta) x * weight (ts ta) x * tw ta * (weight (tp tb) x * weight (ts tb) x * tw tb)) with
        ((weight (tp ta) x * weight (tp tb) x) * (weight (ts ta) x * weight (ts tb) x) * (tw ta * tw tb)) by ring.
      eapply close_trans with (y := (weight tpi x * val (snd pr)) * (weight tsi x * val (snd rr)) * (tw ta * tw tb)).
      * apply close_mul_r; [apply Rmult_le_pos; lra|]. apply close_mul; auto; apply Rmult_le_pos; auto; apply V0.
      * replace (weight tpi x * val (snd pr) * (weight tsi x * val (snd rr)) * (tw ta * tw tb)) with (weight tpi x * weight tsi x * (tw tb * tw ta * val (snd pr) * val (snd rr))) by ring.
        apply close_scal_l; auto. apply Rmult_le_pos; auto.
    + intros x. simpl. rewrite Bs3. f_equal. rewrite BR. unfold bterm, tp at 1, ts at 1; simpl.
      rewrite (pn_base _ _ _ _ _ PO1), (pn_base _ _ _ _ _ PO2). reflexivity.
    + constructor; auto. unfold epos, tp, ts, tw; simpl. split; [split; [|split]|split; [|split]]; auto.
      * apply PO1.
      * apply PO2.
      * apply PO1.
      * apply PO2.
      * eapply range_weaken; [|exact RW]. lra.
    + constructor.
      * exists (ta, tb). split; [left; auto|]. intros x. unfold tp at 1; simpl. rewrite (pn_base _ _ _ _ _ PO1). reflexivity.
      * eapply Forall_impl; [|exact O3]. intros te (tab & Ht & Hb). exists tab. split; [right|]; auto.
    + intros FO. inversion FO as [|? ? FO1 FO2]; subst. constructor; auto. rewrite Forall_forall in O3, FO1. apply Forall_forall.
      intros te Hte. destruct (O3 te Hte) as (tab & Ht & Hb). intros x. rewrite Hb. unfold tp; simpl. rewrite (pn_base _ _ _ _ _ PO1).
      apply (FO1 tab Ht x).
    + intros FO. inversion FO as [|? ? [[FO1 FO2] [FO3 FO4]] FO5]; subst. constructor; auto. split; unfold tp, ts; simpl; [apply PO1|apply PO2]; auto.
Qed.

(** the partition value: a sum of parameters *)
Lemma part_close new tnew p m M : Forall2 (elem_out m p) new tnew -> (forall te, In te tnew -> range M (tw te)) -> M + ln (INR (length tnew)) + INR (length tnew) * e <= B ->
  close (INR (length tnew) * e) (rsum tw tnew) (val (fold_left (fun s f => padd s (e_param f)) new pzero)) /\
  range (M + ln (INR (length tnew)) + INR (length tnew) * e) (val (fold_left (fun s f => padd s (e_param f)) new pzero)).
Proof.
  intros F R HB. assert (length new = length tnew) as LE by (clear - F; induction F; simpl; congruence).
  pose proof (rd_nonneg HP) as V0. pose proof (rd_e HP) as E0.
  assert (close (INR (length tnew) * e) (rsum tw tnew) (val (fold_left (fun s f => padd s (e_param f)) new pzero))) as C.
  { pose proof (sum_close val B e d HP new tnew tw e_param (M + ln (INR (length tnew))) 0 pzero 0 0) as SC. rewrite LE in SC. simpl plus in SC. rewrite Rplus_0_l in SC. apply SC; auto.
    - eapply Forall2_impl_in; [|exact F]. intros a t _ Ht (_ & _ & ->). simpl INR. rewrite Rmult_0_l. apply close_refl; [lra|apply V0].
    - simpl INR. rewrite Rmult_0_l, (rd_zero HP). apply close_refl; lra.
    - apply range_0.
    - intros l1 l2 EL. rewrite Rplus_0_l. apply range_sum; [rewrite EL, app_length; lia|]. intros te Hte. apply R. rewrite EL. apply in_app_iff. auto.
    - intros te Hte. apply (range_weaken M); [pose proof (ln_len tnew); lra|auto]. }
  split; auto. eapply range_close; [|exact C|apply V0]. apply range_sum; auto.
Qed.
Lemma prod_nearD sl sr ta tb tnew tes1 tes2 z : positive (TDec ta) -> positive (TDec tb) -> 0 < z -> (length tnew <= wa * wb)%nat ->
  range (mag (TDec ta) + mag (TDec tb) + slack (vsize (VNode sl sr))) z ->
  (forall x, close (INR (4 * (vsize sl + vsize sr) + 3) * e) (rsum (fun ab => wterm x (fst ab) * wterm x (snd ab)) (list_prod ta tb)) (rsum (wterm x) tnew)) ->
  (forall x, existsb (bterm x) tnew = existsb (fun ab => bterm x (fst ab) && bterm x (snd ab)) (list_prod ta tb)) ->
  Forall (fun te => epos te /\ norm_near dl (tp te) /\ norm_near dl (ts te)) tnew ->
  (ForallOrdPairs pdisj (list_prod ta tb) -> ForallOrdPairs disj tnew) ->
  (Forall (fun tab => edet (fst tab) /\ edet (snd tab)) (list_prod ta tb) -> Forall edet tnew) ->
  close (INR (length tnew) * e) (rsum tw tnew) z ->
  Forall2 (fun te te1 => tp te1 = tp te /\ ts te1 = ts te /\ close e (tw te / z) (tw te1)) tnew tes1 -> Permutation tes1 tes2 ->
  prod_near (vsize (VNode sl sr)) (TDec ta) (TDec tb) (TDec tes2) z.
Proof.
  intros Pa Pb Z LN RZ W Bs PS D1 D2 CZ FT PM. pose proof (rd_e HP) as E0.
  assert (Forall (fun te1 => 0 < tw te1) tes1) as F1.
  { clear - PS FT Z. induction FT as [|te te1 l l1 (_ & _ & C) FT IH]; constructor; inversion PS as [|? ? ((H & _) & _) PS']; subst; auto.
    apply (close_pos _ _ _ C). apply Rdiv_lt_0_compat; auto. }
  assert (Forall (fun te1 => positive (tp te1) /\ positive (ts te1)) tes1) as F2.
  { clear - PS FT. induction FT as [|te te1 l l1 (A & A' & _) FT IH]; constructor; inversion PS as [|? ? ((_ & H & H') & _) PS']; subst; auto. rewrite A, A'. auto. }
  assert (Forall (fun te1 => norm_near dl (tp te1) /\ norm_near dl (ts te1)) tes1) as F3.
  { clear - PS FT. induction FT as [|te te1 l l1 (A & A' & _) FT IH]; constructor; inversion PS as [|? ? (_ & H & H') PS']; subst; auto. rewrite A, A'. auto. }
  split; auto.
  - intros x. rewrite !weight_dec_w, <- (rsum_perm _ _ _ PM), <- rsum_prod.
    assert (INR (4 * vsize (VNode sl sr)) * e = INR (4 * (vsize sl + vsize sr) + 3) * e + e) as ->.
    { cbn [vsize]. replace (4 * (vsize sl + 1 + vsize sr))%nat with (S (4 * (vsize sl + vsize sr) + 3)) by lia. rewrite S_INR. ring. }
    eapply close_trans; [apply W|]. rewrite <- rsum_scal_r. clear - FT PS Z E0. induction FT as [|te te1 l l1 (A & A' & C) FT IH].
    + simpl. apply close_refl; lra.
    + inversion PS as [|? ? ((H & H1 & H2) & _) PS']; subst. rewrite !rsum_cons. apply close_add; auto. unfold wterm. rewrite A, A'.
      replace (weight (tp te) x * weight (ts te) x * tw te) with (weight (tp te) x * (weight (ts te) x * tw te)) by ring.
      replace (weight (tp te) x * weight (ts te) x * tw te1 * z) with (weight (tp te) x * (weight (ts te) x * (tw te1 * z))) by ring.
      apply close_scal_l; [apply weight_nonneg, positive_nonneg; auto|]. apply close_scal_l; [apply weight_nonneg, positive_nonneg; auto|].
      apply close_div_back; auto.
  - intros x. rewrite !base_dec_b, <- (existsb_perm _ _ _ PM), existsb_prod, <- Bs. clear - FT. induction FT as [|te te1 l l1 (A & A' & _) FT IH]; simpl; auto.
    rewrite IH. unfold bterm. rewrite A, A'. reflexivity.
  - apply all_nodes_dec. split; (eapply Permutation_Forall; [exact PM|auto]).
  - apply all_nodes_dec. split; [|eapply Permutation_Forall; [exact PM|auto]].
    rewrite <- (rsum_perm _ _ _ PM). apply close_sym.
    assert (close (INR (length tnew + 1) * e) 1 (rsum tw tes1)) as C1.
    { rewrite plus_INR, Rmult_plus_distr_r. simpl (INR 1). rewrite Rmult_1_l. eapply close_trans with (y := rsum tw tnew / z).
      - apply close_sym. replace 1 with (z / z) by (field; lra). unfold Rdiv. apply close_mul_r; auto. left. apply Rinv_0_lt_compat; auto.
      - unfold Rdiv. rewrite <- rsum_scal_r. clear - FT E0. induction FT as [|te te1 l l1 (_ & _ & C) FT IH]; [simpl; apply close_refl; lra|].
        rewrite !rsum_cons. apply close_add; auto. }
    eapply close_weaken; [|lra| |exact C1].
    + eapply Rle_trans; [|exact HK]. apply Rmult_le_compat_r; auto. apply le_INR. lia.
    + apply rsum_nonneg. intros te Hte. rewrite Forall_forall in F1. specialize (F1 te Hte). lra.
  - intros Da Db. apply all_nodes_dec in Da as [Da1 Da2], Db as [Db1 Db2]. apply all_nodes_dec. split.
    + eapply FOP_perm; [|exact PM|]. { intros a b H x. rewrite andb_comm. auto. }
      specialize (D1 (FOP_prod _ _ Da1 Db1)). clear - D1 FT. revert tes1 FT. induction D1 as [|te l H F IH]; intros tes1 FT; inversion FT as [|? te1 ? l1 (A & _) FT']; subst; constructor; auto.
      clear - H FT' A. induction FT' as [|u u1 l l1 (A' & _) FT IH]; constructor; inversion H; subst; auto. intros x. unfold disj in *. rewrite A, A'. auto.
    + eapply Permutation_Forall; [exact PM|]. 
      assert (Forall edet tnew) as ED.
      { apply D2. apply Forall_forall. intros [u v] H. apply in_prod_iff in H as [H1 H2]. rewrite Forall_forall in Da2, Db2. split; [apply Da2|apply Db2]; auto. }
      clear - ED FT. induction FT as [|te te1 l l1 (A & A' & _) FT IH]; constructor; inversion ED as [|? ? [H H'] ED']; subst; auto. rewrite A, A'. auto.
Qed.

Lemma two_e : 2 * e <= dl.
Proof. pose proof (rd_e HP). pose proof (ke_nonneg val B e d HP (wa * wb)). rewrite plus_INR in HK. simpl (INR 2) in HK. lra. Qed.
Lemma slack_1 : 1 + 4 * e <= slack 1.
Proof. unfold slack. rewrite plus_INR. simpl (INR 1). simpl (INR 4). pose proof (ke_nonneg val B e d HP (wa * wb)). lra. Qed.
Lemma top_step v pta pfa ptb pfb : let z := padd (pmul pta ptb) (pmul pfa pfb) in let ta := TTop v (val pta) (val pfa) in let tb := TTop v (val ptb) (val pfb) in
  fit 1 ta tb -> top_fit B dl (val (pdiv (pmul pta ptb) z)) (val (pdiv (pmul pfa pfb) z)) /\
    prod_near 1 ta tb (TTop v (val (pdiv (pmul pta ptb) z)) (val (pdiv (pmul pfa pfb) z))) (val z).
Proof.
  intros z ta tb (Pa & Pb & _ & _ & HB). pose proof (rd_e HP) as E0. pose proof (rd_nonneg HP) as V0. pose proof two_e as T2. pose proof slack_1 as S1.
  destruct (all_nodes_root _ _ Pa) as [Pt Pf]. destruct (all_nodes_root _ _ Pb) as [Qt Qf].
  set (Ma := mag ta) in *. set (Mb := mag tb) in *.
  assert (0 <= Ma) as Ga by apply mag_nonneg. assert (0 <= Mb) as Gb by apply mag_nonneg.
  assert (range Ma (val pta)) as R1 by (apply (range_weaken (lg (val pta))); [apply Rmax_l|apply range_lg, V0]).
  assert (range Ma (val pfa)) as R2 by (apply (range_weaken (lg (val pfa))); [apply Rmax_r|apply range_lg, V0]).
  assert (range Mb (val ptb)) as R3 by (apply (range_weaken (lg (val ptb))); [apply Rmax_l|apply range_lg, V0]).
  assert (range Mb (val pfb)) as R4 by (apply (range_weaken (lg (val pfb))); [apply Rmax_r|apply range_lg, V0]).
  destruct (mul_step pta ptb Ma Mb) as [C1 RW1]; auto; [lra|]. destruct (mul_step pfa pfb Ma Mb) as [C2 RW2]; auto; [lra|].
  set (w1 := pmul pta ptb) in *. set (w2 := pmul pfa pfb) in *.
  assert (0 < val w1) as W1 by (apply (close_pos _ _ _ C1); apply Rmult_lt_0_compat; auto).
  assert (0 < val w2) as W2 by (apply (close_pos _ _ _ C2); apply Rmult_lt_0_compat; auto).
  assert (ln 2 <= 1) as L2 by (pose proof (ln_le_sub 2); lra). assert (0 <= ln 2) as L0 by (rewrite <- ln_1; apply ln_mono; lra).
  assert (range (Ma + Mb + e + ln 2) (val w1 + val w2)) as RS.
  { pose proof (range_sum (Ma + Mb + e) (fun r : R => r) [val w1; val w2] 2 (le_n _)) as RS. simpl (INR 2) in RS. cbn [rsum] in RS.
    replace (val w1 + val w2) with (rsum (fun r : R => r) [val w1; val w2]) by (simpl; ring). apply RS. intros r [<-|[<-|[]]]; auto. }
  assert (close e (val w1 + val w2) (val z)) as CZ.
  { apply (rd_add HP); [apply (range_weaken (Ma + Mb + e))|apply (range_weaken (Ma + Mb + e))|apply (range_weaken (Ma + Mb + e + ln 2))]; auto; lra. }
  assert (range (Ma + Mb + e + ln 2 + e) (val z)) as RZ by (eapply range_close; [exact RS|exact CZ|apply V0]).
  assert (0 < val z) as Z0 by (apply (close_pos _ _ _ CZ); lra).
  assert (forall w, range (Ma + Mb + e) (val w) -> close e (val w / val z) (val (pdiv w z)) /\ range B (val (pdiv w z))) as DV.
  { intros w Rw. assert (range (Ma + Mb + e + (Ma + Mb + e + ln 2 + e)) (val w / val z)) as RD by (apply range_div; auto; lra).
    assert (close e (val w / val z) (val (pdiv w z))) as CD.
    { apply (rd_div HP); [apply (range_weaken (Ma + Mb + e))|apply (range_weaken (Ma + Mb + e + ln 2 + e))| |eapply range_weaken; [|exact RD]]; auto; lra. }
    split; auto. eapply range_weaken; [|eapply range_close; [exact RD|exact CD|apply V0]]. lra. }
  destruct (DV w1 RW1) as [D1 RD1]. destruct (DV w2 RW2) as [D2 RD2].
  assert (0 < val (pdiv w1 z)) as P1 by (apply (close_pos _ _ _ D1); apply Rdiv_lt_0_compat; auto).
  assert (0 < val (pdiv w2 z)) as P2 by (apply (close_pos _ _ _ D2); apply Rdiv_lt_0_compat; auto).
  assert (close dl (val (pdiv w1 z) + val (pdiv w2 z)) 1) as N1.
  { apply close_sym. apply (close_weaken (e + e)); try lra. apply close_trans with (y := (val w1 + val w2) / val z).
    - apply close_sym. replace 1 with (val z / val z) by (field; lra). unfold Rdiv. apply close_mul_r; auto. left. apply Rinv_0_lt_compat; auto.
    - unfold Rdiv. rewrite Rmult_plus_distr_r. apply close_add; auto. }
  split; [repeat split; auto|]; try apply N1.
  assert (forall a b w, close e (val a * val b) (val w) -> close e (val w / val z) (val (pdiv w z)) -> close (INR 4 * e) (val a * val b) (val (pdiv w z) * val z)) as CC.
  { intros a b w H1 H2. apply (close_weaken (e + e)); [simpl; lra|apply Rmult_le_pos; apply V0|apply Rmult_le_pos; apply V0|].
    eapply close_trans; [exact H1|]. apply close_div_back; auto. }
  split; auto.
  - eapply range_weaken; [|exact RZ]. fold Ma Mb. lra.
  - intros x. change (4 * 1)%nat with 4%nat. cbn [weight]. unfold ta, tb. cbn [weight]. destruct (x v); apply CC; auto.
  - split; simpl; auto.
  - split; simpl; auto.
Qed.
Theorem mul_with_cacheR fl : forall n, mul_specR fl n (multiply_with_cache n fl).
Proof.
  induction n as [|n IH]; intros a b m c p s ta tb La I CO Hs Na Nb FT; [lia|].
  pose proof FT as (Pa & Pb & Qa & Qb & HB). pose proof (rd_e HP) as E0. pose proof (rd_nonneg HP) as V0. pose proof slack_1 as S1'.
  pose proof (fun fl m (I : Good fl m) => proj1 I) as GW.
  cbn [multiply_with_cache]. rewrite (cache_pos_ok val Good GW fl m a p ta I Na). cbn [bind].
  destruct (alookup key_eqb (vpos (m_vt m) p, a, b) c) as [r|] eqn:EL.
  { exists r, m, c. split; auto. split; auto. split; [apply mext_refl|]. split; auto. apply alookup_in in EL.
    destruct (CO _ _ _ _ EL) as (p' & s' & ta' & tb' & Hs' & Na' & Nb' & M). 
    destruct (node_at_fun _ _ _ _ _ _ _ Na Na') as [<- <-]. destruct (node_at_fun _ _ _ _ _ _ _ Nb Nb') as [_ <-]. assert (s' = s) as -> by congruence. exact M. }
  clear EL.
  destruct (node_at_conforms val m a p ta (GW _ _ I) Na) as (s1 & Hs1 & Ca). assert (s1 = s) as -> by congruence. clear Hs1.
  destruct (node_at_conforms val m b p tb (GW _ _ I) Nb) as (s1 & Hs1 & Cb). assert (s1 = s) as -> by congruence. clear Hs1.
  (* common ending: the result is stored *)
  assert (forall r m', Good fl m' -> mext fl m m' -> forall c0, cache_okR fl m' c0 -> mul_okR fl m' p s ta tb r ->
    exists c', cache_update m' c0 a b r = Ok c' /\ cache_okR fl m' c') as FIN.
  { intros r m' I' X c0 CO0 M. unfold cache_update. rewrite (cache_pos_ok val Good GW fl m' a p ta I' (node_at_ext _ _ _ _ _ _ _ X Na)). cbn [bind].
    eexists. split; [reflexivity|]. intros pos a' b' r' [H|H]; [|eapply CO0; eauto]. injection H as <- <- <- <-.
    exists p, s, ta, tb. split; [rewrite (me_vt _ _ _ X); auto|]. split; [|split]; auto; eapply node_at_ext; eauto. }
  pose proof Na as [Va Ra]. pose proof Nb as [Vb Rb].
  inversion Ra as [? na la Ea Eba|? na va pta pfa Ea Eba|? na ea tea Ea Eba Fa]; subst;
  inversion Rb as [? nb lb Eb Ebb|? nb vb ptb pfb Eb Ebb|? nb eb teb Eb Ebb Fb]; subst;
  (destruct s as [v|sl sr]; simpl in Ca, Cb; try contradiction); rewrite Ea, Eb; cbn [get bind];
  unfold vt_of in Va, Vb; rewrite Ea in Va; rewrite Eb in Vb; simpl in Va, Vb; injection Va as Va; injection Vb as Vb;
  rewrite Va, Vb, Nat.eqb_refl; cbn [assert bind]; rewrite Eba, Ebb.
  - (* literal, literal *)
    unfold lit_var. rewrite Ca, Cb, N.eqb_refl. cbn [assert bind]. destruct (Z.eqb la lb) eqn:EZ.
    + apply Z.eqb_eq in EZ. subst lb.
      assert (subtree (m_vt m) p = Some (Leaf (lit_var la))) as S1 by (unfold lit_var; rewrite Ca; auto).
      destruct (literal_rnear val B d dl HC fl m la p I S1) as (i & m' & E1 & I' & X & LV & A & FL). rewrite E1. cbn [bind].
      assert (mul_okR fl m' p (Leaf v) (TLit la) (TLit la) (Some i, pone)) as M.
      { exists (TLit la). split; auto. split; [|auto]. cbn [snd]. rewrite (rd_one HP). split; try lra; auto; try (split; simpl; auto; fail).
        - apply range_1. simpl mag. cbn [vsize]. lra.
        - intros x. simpl weight. destruct (lit_sat la x); rewrite ?Rmult_1_r, ?Rmult_0_l; apply close_refl; try lra; apply (ke_nonneg val B e d HP).
        - intros x. simpl. destruct (lit_sat la x); auto.
 }
      destruct (FIN _ m' I' X c (cache_okR_ext _ _ _ _ X CO) M) as (c' & E2 & CO'). rewrite E2. cbn [bind]. eauto 10.
    + assert (mul_okR fl m p (Leaf v) (TLit la) (TLit lb) (None, pzero)) as M.
      { split; [apply (rd_zero HP)|]. intros x. simpl. unfold lit_sat. rewrite Ca, Cb. apply Z.eqb_neq in EZ.
        destruct (Z.ltb_spec 0 la), (Z.ltb_spec 0 lb), (x v); simpl; auto; exfalso; lia. }
      destruct (FIN _ m I (mext_refl _ _) c CO M) as (c' & E2 & CO'). rewrite E2. cbn [bind].
      exists (None, pzero), m, c'. split; auto. split; auto. split; [apply mext_refl|]. auto.
  - (* literal, top *)
    subst vb. unfold lit_var at 1. rewrite Ca, N.eqb_refl. cbn [assert bind].
    assert (subtree (m_vt m) p = Some (Leaf (lit_var la))) as S1 by (unfold lit_var; rewrite Ca; auto).
    destruct (literal_rnear val B d dl HC fl m la p I S1) as (i & m' & E1 & I' & X & LV & A & FL). rewrite E1. cbn [bind].
    destruct (all_nodes_root _ _ Pb) as [Pt Pf].
    assert (mul_okR fl m' p (Leaf v) (TLit la) (TTop v (val ptb) (val pfb)) (Some i, if lit_sign la then ptb else pfb)) as M.
    { exists (TLit la). split; auto. split; [|auto]. cbn [snd]. split; auto; try (split; simpl; auto; fail).
      - destruct (lit_sign la); auto.
      - simpl mag. cbn [vsize]. destruct (lit_sign la); (eapply range_weaken; [|apply range_lg, V0]).
        + pose proof (Rmax_l (lg (val ptb)) (lg (val pfb))). lra.
        + pose proof (Rmax_r (lg (val ptb)) (lg (val pfb))). lra.
      - intros x. assert (weight (TLit la) x * weight (TTop v (val ptb) (val pfb)) x = weight (TLit la) x * val (if lit_sign la then ptb else pfb)) as ->.
        { simpl. unfold lit_sat, lit_sign. rewrite Ca. destruct (Z.ltb 0 la), (x v); simpl; lra. }
        apply close_refl; [apply (ke_nonneg val B e d HP)|]. apply Rmult_le_pos; auto. simpl. destruct (lit_sat la x); lra.
      - intros x. simpl. rewrite andb_true_r; auto.
      }
    destruct (FIN _ m' I' X c (cache_okR_ext _ _ _ _ X CO) M) as (c' & E2 & CO'). rewrite E2. cbn [bind]. eauto 10.
  - (* top, literal *)
    subst va. unfold lit_var at 1. rewrite Cb, N.eqb_refl. cbn [assert bind].
    assert (subtree (m_vt m) p = Some (Leaf (lit_var lb))) as S1 by (unfold lit_var; rewrite Cb; auto).
    destruct (literal_rnear val B d dl HC fl m lb p I S1) as (i & m' & E1 & I' & X & LV & A & FL). rewrite E1. cbn [bind].
    destruct (all_nodes_root _ _ Pa) as [Pt Pf].
    assert (mul_okR fl m' p (Leaf v) (TTop v (val pta) (val pfa)) (TLit lb) (Some i, if lit_sign lb then pta else pfa)) as M.
    { exists (TLit lb). split; auto. split; [|auto]. cbn [snd]. split; auto; try (split; simpl; auto; fail).
      - destruct (lit_sign lb); auto.
      - simpl mag. cbn [vsize]. destruct (lit_sign lb); (eapply range_weaken; [|apply range_lg, V0]).
        + pose proof (Rmax_l (lg (val pta)) (lg (val pfa))). lra.
        + pose proof (Rmax_r (lg (val pta)) (lg (val pfa))). lra.
      - intros x. assert (weight (TTop v (val pta) (val pfa)) x * weight (TLit lb) x = weight (TLit lb) x * val (if lit_sign lb then pta else pfa)) as ->.
        { simpl. unfold lit_sat, lit_sign. rewrite Cb. destruct (Z.ltb 0 lb), (x v); simpl; lra. }
        apply close_refl; [apply (ke_nonneg val B e d HP)|]. apply Rmult_le_pos; auto. simpl. destruct (lit_sat lb x); lra.
      }
    destruct (FIN _ m' I' X c (cache_okR_ext _ _ _ _ X CO) M) as (c' & E2 & CO'). rewrite E2. cbn [bind]. eauto 10.
  - (* top, top *)
    subst va vb. rewrite N.eqb_refl. cbn [assert bind].
    set (z := padd (pmul pta ptb) (pmul pfa pfb)).
    destruct (top_step v pta pfa ptb pfb FT) as [TF PN]. fold z in TF, PN.
    destruct (top_rnear val B d dl HC fl m v (pdiv (pmul pta ptb) z) (pdiv (pmul pfa pfb) z) p I Hs TF) as (i & m' & nd & pt & pf & E1 & I' & X & LV & A & FL & E2 & E3 & Q1 & Q2).
    rewrite E1. cbn [bind]. rewrite E2. cbn [get bind]. rewrite E3, Q1, Q2. cbn [negb assert bind].
    assert (mul_okR fl m' p (Leaf v) (TTop v (val pta) (val pfa)) (TTop v (val ptb) (val pfb)) (Some i, z)) as M.
    { eexists. split; [exact A|]. split; [exact PN|auto]. }
    destruct (FIN _ m' I' X c (cache_okR_ext _ _ _ _ X CO) M) as (c' & E4 & CO'). rewrite E4. cbn [bind]. eauto 10.
  - (* decision, decision *)
    destruct (elem_at_rep val Good GW fl m a na ea p tea I Ea Eba Va Fa) as [Fa' Ba].
    destruct (elem_at_rep val Good GW fl m b nb eb p teb I Eb Ebb Vb Fb) as [Fb' _].
    pose proof (positive_elems _ Pa) as Ga. pose proof (positive_elems _ Pb) as Gb.
    set (M0 := mag (TDec tea) + mag (TDec teb) - ln (INR (length tea)) - ln (INR (length teb))).
    pose proof (mag_nonneg (TDec tea)) as Ma0. pose proof (mag_nonneg (TDec teb)) as Mb0. pose proof (ln_len tea) as La0. pose proof (ln_len teb) as Lb0. pose proof (slack_nonneg (vsize sl)) as Sl0. pose proof (slack_nonneg (vsize sr)) as Sr0.
    rewrite slack_node in HB. pose proof (ke_nonneg val B e d HP (wa * wb)) as KW. assert (INR (wa * wb + 4) * e = INR (wa * wb) * e + 4 * e) as K4 by (rewrite plus_INR; simpl (INR 4); ring).
    rewrite K4 in HB.
    assert (subtree (m_vt m) (false :: p) = Some sl) as Hl by (simpl; rewrite Hs; auto).
    assert (subtree (m_vt m) (true :: p) = Some sr) as Hr by (simpl; rewrite Hs; auto).
    assert (forall te, In te tea -> mag (tp te) + mag (ts te) + lg (tw te) <= mag (TDec tea) - ln (INR (length tea))) as MA by (intros te Hte; pose proof (mag_elem tea te Hte); lra).
    assert (forall te, In te teb -> mag (tp te) + mag (ts te) + lg (tw te) <= mag (TDec teb) - ln (INR (length teb))) as MBe by (intros te Hte; pose proof (mag_elem teb te Hte); lra).
    destruct (mul_pairsR fl n (multiply_with_cache n fl) p sl sr M0 ltac:(unfold M0; lra) IH (list_prod ea eb) (list_prod tea teb) [] pzero m c I CO Hl Hr)
      as (new & part & m1 & c1 & tnew & E1 & I1 & X1 & CO1 & F1 & V1 & LN & W1 & Bs1 & P1 & _ & D1 & D2).
    { apply Forall2_list_prod; auto. }
    { intros [u v] H. apply in_prod_iff in H as [H _]. destruct (Ba u H). simpl. lia. }
    { apply Forall_forall. intros [u v] H. apply in_prod_iff in H as [H1 H2]. rewrite Forall_forall in Ga, Gb. unfold pair_fit. cbn [fst snd].
      destruct (width_elem tea u H1), (width_elem teb v H2). pose proof (MA u H1). pose proof (MBe v H2).
      split; [apply Ga; auto|]. split; [apply Gb; auto|]. split; [lia|]. unfold M0. lra. }
    rewrite E1. cbn [bind]. rewrite app_nil_l.
    destruct new as [|e0 new].
    + inversion F1; subst tnew.
      assert (mul_okR fl m1 p (VNode sl sr) (TDec tea) (TDec teb) (None, pzero)) as M.
      { split; [apply (rd_zero HP)|]. intros x. rewrite !base_dec_b, existsb_prod, <- Bs1. reflexivity. }
      destruct (FIN _ m1 I1 X1 c1 CO1 M) as (c' & E4 & CO'). rewrite E4. cbn [bind]. eexists _, m1, c'. split; [reflexivity|auto].
    + set (Mw := M0 + slack (vsize sl) + slack (vsize sr) + 3 * e) in *.
      rewrite prod_length in LN.
      assert (1 <= length tnew)%nat as L1 by (inversion F1; subst; simpl; lia).
      assert (length tnew <= wa * wb)%nat as LW.
      { eapply Nat.le_trans; [exact LN|]. apply Nat.mul_le_mono; (eapply Nat.le_trans; [apply width_len|auto]). }
      assert (1 <= INR (length tnew)) as L1' by (apply (le_INR 1); auto).
      assert (1 <= length tea /\ 1 <= length teb)%nat as [LA LB] by nia.
      assert (1 <= INR (length tea)) as LA' by (apply (le_INR 1); auto). assert (1 <= INR (length teb)) as LB' by (apply (le_INR 1); auto).
      assert (ln (INR (length tnew)) <= ln (INR (length tea)) + ln (INR (length teb))) as LL.
      { rewrite <- ln_mult by lra. apply ln_mono; [lra|]. rewrite <- mult_INR. apply le_INR; auto. }
      assert (INR (length tnew) * e <= INR (wa * wb) * e) as LE by (apply (ke_le val B e d HP); auto).
      assert (forall te, In te tnew -> range Mw (tw te)) as RW by (intros te Hte; rewrite Forall_forall in P1; apply P1; auto).
      destruct (part_close (e0 :: new) tnew p m1 Mw F1 RW) as [CZ RZ]. { unfold Mw, M0. lra. }
      rewrite <- V1 in CZ, RZ. set (Mz := Mw + ln (INR (length tnew)) + INR (length tnew) * e) in *.
      assert (Forall (fun te => 0 < tw te) tnew) as PT by (eapply Forall_impl; [|exact P1]; intros te ((H & _) & _); auto).
      assert (0 < val part) as PZ.
      { apply (close_pos _ _ _ CZ). destruct tnew as [|te0 tn]; [simpl in L1; lia|]. inversion PT as [|? ? PT1 PT2]; subst. rewrite rsum_cons.
        assert (0 <= rsum tw tn); [|lra]. apply rsum_nonneg. intros te Hte. rewrite Forall_forall in PT2. specialize (PT2 te Hte). lra. }
      assert (forall w, range Mw (val w) -> close e (val w / val part) (val (pdiv w part)) /\ range B (val (pdiv w part))) as DV.
      { intros w Rw. assert (range (Mw + Mz) (val w / val part)) as RD by (apply range_div; [auto|auto|lra]).
        assert (Mw + Mz + e <= B) as BB by (unfold Mz, Mw, M0; lra). assert (0 <= M0) as M00.
        { unfold M0. destruct tea as [|t1 tea]; [simpl in LA; lia|]. destruct teb as [|t2 teb]; [simpl in LB; lia|]. pose proof (MA t1 (or_introl eq_refl)). pose proof (MBe t2 (or_introl eq_refl)).
          pose proof (mag_nonneg (tp t1)). pose proof (mag_nonneg (ts t1)). pose proof (lg_nonneg (tw t1)). pose proof (mag_nonneg (tp t2)). pose proof (mag_nonneg (ts t2)). pose proof (lg_nonneg (tw t2)). lra. }
        assert (0 <= Mw) by (unfold Mw; lra). pose proof (ke_nonneg val B e d HP (length tnew)). pose proof (ln_len tnew). assert (0 <= Mz) by (unfold Mz; lra).
        assert (close e (val w / val part) (val (pdiv w part))) as CD.
        { apply (rd_div HP); [apply (range_weaken Mw)|apply (range_weaken Mz)| |apply (range_weaken (Mw + Mz))]; auto; lra. }
        split; auto. eapply range_weaken; [|eapply range_close; [exact RD|exact CD|apply V0]]. lra. }
      set (es1 := map (fun e => MkE (e_prime e) (e_sub e) (pdiv (e_param e) part)) (e0 :: new)).
      assert (Forall (fun e => range Mw (val (e_param e))) (e0 :: new)) as RN.
      { apply Forall_forall. intros f Hf. destruct (Forall2_in_l _ _ _ _ F1 Hf) as (te & Hte & _ & _ & <-). auto. }
      assert (exists tes1, Forall2 (elem_out m1 p) es1 tes1 /\ Forall2 (fun te te1 => tp te1 = tp te /\ ts te1 = ts te /\ close e (tw te / val part) (tw te1)) tnew tes1) as (tes1 & FE & FT1).
      { unfold es1. clear - F1 DV RN. induction F1 as [|f te es tes (A & A' & C) F IH]; simpl; [exists []; auto|].
        inversion RN as [|? ? R0 RN']; subst. destruct (IH RN') as (tes1 & G1 & G2). exists ((tp te, ts te, val (pdiv (e_param f) part)) :: tes1). split; constructor; auto.
        - split; [exact A|]. split; [exact A'|reflexivity].
        - split; [reflexivity|]. split; [reflexivity|]. unfold tw at 2; cbn [snd]. rewrite C. apply DV; auto. }
      assert (Forall (fun e => range B (val (e_param e))) es1) as RE.
      { apply Forall_forall. intros f Hf. apply in_map_iff in Hf as (g & <- & Hg). simpl. rewrite Forall_forall in RN. apply DV. auto. }
      assert (forallb (fun w => negb (peq w pzero)) (map (fun e => pdiv (e_param e) part) (e0 :: new)) = true) as AS.
      { apply forallb_forall. intros w Hw. apply in_map_iff in Hw as (f & <- & Hf). destruct (Forall2_in_l _ _ _ _ F1 Hf) as (te & Hte & _ & _ & C).
        rewrite (pos_not_zero val B d HC); auto. rewrite Forall_forall in RN, PT. destruct (DV _ (RN f Hf)) as [CD _]. apply (close_pos _ _ _ CD). rewrite <- C. apply Rdiv_lt_0_compat; auto. }
      rewrite AS. cbn [assert bind].
      assert (subtree (m_vt m1) p = Some (VNode sl sr)) as HV by (rewrite (me_vt _ _ _ X1); auto).
      assert (es1 <> []) as NE by discriminate.
      destruct (conformed_rnear val B d dl HC fl m1 p sl sr es1 tes1 I1 HV NE FE RE) as (i & m2 & tes2 & E4 & I2 & X2 & LV & PM & A & FL).
      assert (map e_prime (e0 :: new) = map e_prime es1) as -> by (unfold es1; rewrite map_map; reflexivity).
      assert (map e_sub (e0 :: new) = map e_sub es1) as -> by (unfold es1; rewrite map_map; reflexivity).
      assert (map (fun e => pdiv (e_param e) part) (e0 :: new) = map e_param es1) as -> by (unfold es1; rewrite map_map; reflexivity).
      rewrite E4. cbn [bind].
      assert (mul_okR fl m2 p (VNode sl sr) (TDec tea) (TDec teb) (Some i, part)) as M.
      { exists (TDec tes2). split; auto. split; [|auto]. cbn [snd]. eapply (prod_nearD sl sr tea teb tnew tes1 tes2); eauto.
        - eapply range_weaken; [|exact RZ]. rewrite slack_node, K4. unfold Mz, Mw, M0. lra.
        - eapply Forall_impl; [|exact P1]. intros te (G1 & G2 & G3 & _). auto. }
      pose proof (mext_trans _ _ _ _ X1 X2) as X12.
      destruct (FIN _ m2 I2 X12 c1 (cache_okR_ext _ _ _ _ X2 CO1) M) as (c' & E5 & CO'). rewrite E5. cbn [bind]. eexists _, m2, c'. split; [reflexivity|auto].
Qed.
End RoundMul.

Lemma rnear_norm d dl t : 0 <= d -> 0 <= dl -> forall t', rnear d dl t t' -> norm_near dl t -> nonneg t -> nonneg t' -> norm_near (d + dl) t'.
Proof.
  intros D DL. unfold norm_near. induction t as [l|v a b|es IH] using ptree_ind2; intros t' H N NN NN'.
  - destruct t'; simpl in H; try contradiction. simpl. auto.
  - destruct t' as [|v' a' b'|]; simpl in H; try contradiction. destruct H as (_ & _ & _ & H & _). destruct (all_nodes_root _ _ NN') as [A0 B0].
    split; simpl; auto. apply (close_weaken dl); auto; lra.
  - apply rnear_dec_inv in H as (es' & -> & F). apply all_nodes_dec in N as [N1 N2]. apply all_nodes_dec in NN as [A1 A2], NN' as [B1 B2]. apply all_nodes_dec. split.
    + eapply close_trans; [|exact N1]. apply close_sym. clear - F D. induction F as [|f f' es es' (_ & _ & C) F IHF]; [apply close_refl; simpl; lra|]. rewrite !rsum_cons. apply close_add; auto.
    + clear N1. induction F as [|f f' es es' (A & A' & C) F IHF]; auto. inversion IH as [|? ? [I1 I2] I3]; inversion N2 as [|? ? [M1 M2] M3]; inversion A1; inversion A2 as [|? ? [U1 U2] U3]; inversion B1; inversion B2 as [|? ? [W1 W2] W3]; subst.
      constructor; auto.
Qed.
Lemma close_sum_over c vs (f g : inst -> R) : (forall x, close c (f x) (g x)) -> forall x0, close c (sum_over vs f x0) (sum_over vs g x0).
Proof. intros H. induction vs as [|v vs IH]; intros x0; simpl; auto. apply close_add; auto. Qed.
(** ** Final form *)
Theorem round_multiply {P : pops} (val : P -> R) B e d : pround P val B e d -> pcompare P val B d -> forall dl wa wb fl (m : mgr P) a b p s ta tb,
  0 <= dl -> INR (wa * wb + 2) * e <= dl -> Wf m -> fits val B dl fl m -> subtree (m_vt m) p = Some s ->
  vt_of (m_heap m) a = Some p -> vt_of (m_heap m) b = Some p -> Rep val (m_heap m) a ta -> Rep val (m_heap m) b tb -> positive ta -> positive tb ->
  (width ta <= wa)%nat -> (width tb <= wb)%nat -> 2 * (mag ta + mag tb) + 2 * (INR (vsize s) * (1 + INR (wa * wb + 4) * e)) <= B ->
  exists r z m', Multiply m a b fl = Ok ((r, z), m') /\ mext fl m m' /\ Wf m' /\ fits val B dl fl m' /\
    (forall x0, close (INR (vsize s) * (4 * e + dl)) (sum_over (leaves s) (fun x => weight ta x * weight tb x) x0) (val z)) /\
    (r = None <-> forall x, weight ta x * weight tb x = 0) /\
    forall i, r = Some i -> vt_of (m_heap m') i = Some p /\ flag_of (m_heap m') i = Some fl /\ In i (m_live m') /\
      exists t, Rep val (m_heap m') i t /\ conforms s t /\ positive t /\ norm_near (d + dl) t /\ (forall x, base t x = base ta x && base tb x) /\
        (deterministic ta -> deterministic tb -> deterministic t) /\
        forall x0, sum_over (leaves s) (fun x => Rabs (weight ta x * weight tb x / sum_over (leaves s) (fun y => weight ta y * weight tb y) x0 - weight t x)) x0
          <= exp (INR (vsize s) * (2 * d + 4 * dl + 8 * e)) - 1.
Proof.
  intros HP HC dl wa wb fl m a b p s ta tb DL HK W FI S Va Vb Ra Rb Pa Pb Qa Qb HB.
  pose proof (rd_e HP) as E0. pose proof (rd_d HP) as D0. pose proof (rd_nonneg HP) as V0.
  destruct (mul_with_cacheR val B e d dl HP HC wa wb HK fl (Datatypes.S a) a b m [] p s ta tb) as (r & m' & c' & E & [W' FI'] & X & _ & M); auto.
  { split; auto. } { intros ? ? ? ? []. } { split; auto. } { split; auto. } { repeat split; auto. }
  destruct r as [r z]. exists r, z, m'.
  assert (Multiply m a b fl = Ok ((r, z), m')) as EM.
  { unfold Multiply. match goal with |- bind ?x _ = _ => change x with (multiply_with_cache (Datatypes.S a) fl a b (m, [])) end.
    unfold mcache in *. unfold mres in *. rewrite E. reflexivity. }
  split; auto. split; auto. split; auto. split; auto.
  pose proof (subtree_nodup (m_vt m) (wf_leaves _ W) p s S) as ND.
  assert (forall x, weight ta x * weight tb x = 0 <-> base ta x && base tb x = false) as HW.
  { intros x. pose proof (weight_pos_base ta x Pa) as [A1 A2]. pose proof (weight_pos_base tb x Pb) as [B1 B2].
    pose proof (weight_zero_off_base ta x). pose proof (weight_zero_off_base tb x). split; intros G.
    - apply Rmult_integral in G. destruct (base ta x), (base tb x); auto. exfalso. specialize (A2 eq_refl). specialize (B2 eq_refl). lra.
    - apply andb_false_iff in G as [G|G]; [rewrite H|rewrite H0]; auto; lra. }
  unfold mul_okR in M. cbn [fst snd] in M. destruct r as [i|].
  - destruct M as (t & (t' & A & NR) & PN & FL & LV).
    destruct (node_at_conforms val m' i p t' W' A) as (s' & S' & C'). rewrite (me_vt _ _ _ X) in S'. assert (s' = s) as -> by congruence.
    pose proof (rnear_conforms d dl t s t' NR C') as C. pose proof (pn_z _ _ _ _ _ _ _ _ _ PN) as Z0. pose proof (pn_norm _ _ _ _ _ _ _ _ _ PN) as NN. pose proof (pn_pos _ _ _ _ _ _ _ _ _ PN) as PT.
    pose proof (pn_weight _ _ _ _ _ _ _ _ _ PN) as PW. pose proof (positive_nonneg _ PT) as NG. pose proof (Rep_nonneg_r val B e d HP _ _ _ (proj2 A)) as NG'.
    set (n := INR (vsize s)) in *. assert (0 <= n) as N0 by apply pos_INR. assert (INR (4 * vsize s) * e = 4 * n * e) as E4 by (rewrite mult_INR; simpl (INR 4); unfold n; ring). rewrite E4 in PW.
    assert (forall x0, close (4 * n * e + n * dl) (sum_over (leaves s) (fun x => weight ta x * weight tb x) x0) (val z)) as CZ.
    { intros x0. pose proof (close_sum_over _ (leaves s) _ _ PW x0) as C1.
      assert (sum_over (leaves s) (fun x => weight t x * val z) x0 = sum_over (leaves s) (weight t) x0 * val z) as ER.
      { rewrite Rmult_comm, <- sum_over_scal. apply sum_over_ext'. intros; ring. }
      rewrite ER in C1. eapply close_trans; [exact C1|]. rewrite <- (Rmult_1_l (val z)) at 2. apply close_mul_r; [lra|]. apply total_near; auto. }
    split; [intros x0; replace (n * (4 * e + dl)) with (4 * n * e + n * dl) by ring; apply CZ|].
    split.
    { split; [discriminate|]. intros G. exfalso. destruct (base_sat s ND t C) as [x Hx]. rewrite (pn_base _ _ _ _ _ _ _ _ _ PN) in Hx. specialize (G x). apply HW in G. congruence. }
    intros j [= <-]. destruct A as [A1 A2]. split; auto. split; auto. split; auto.
    exists t'. split; auto. split; auto. split; [eapply rnear_positive; eauto|]. split; [eapply rnear_norm; eauto|].
    split; [intros x; rewrite (rnear_base d dl t t' x NR); apply PN|]. split; [intros Da Db; eapply rnear_deterministic; eauto; apply PN; auto|].
    intros x0. set (Z := sum_over (leaves s) (fun y => weight ta y * weight tb y) x0).
    assert (0 < Z) as ZP by (apply (close_pos _ _ _ (CZ x0)); auto).
    set (c := 4 * n * e + (4 * n * e + n * dl)). assert (0 <= n * e) as NE by (apply Rmult_le_pos; auto). assert (0 <= n * dl) as NDL by (apply Rmult_le_pos; auto). assert (0 <= c) as C0 by (unfold c; lra).
    assert (forall x, close c (weight ta x * weight tb x / Z) (weight t x)) as PC.
    { intros x. unfold c. apply close_trans with (y := weight t x * val z / Z).
      - unfold Rdiv. apply close_mul_r; auto. left. apply Rinv_0_lt_compat; auto.
      - apply close_sym. replace (weight t x * val z / Z) with (weight t x * (val z / Z)) by (unfold Rdiv; ring). rewrite <- (Rmult_1_r (weight t x)) at 1. apply close_scal_l; [apply weight_nonneg; auto|].
        replace 1 with (Z / Z) by (field; lra). unfold Rdiv. apply close_mul_r; [left; apply Rinv_0_lt_compat; auto|]. apply CZ. }
    assert (forall x, 0 <= weight ta x * weight tb x / Z) as U0.
    { intros x. apply Rmult_le_pos; [|left; apply Rinv_0_lt_compat; auto]. apply Rmult_le_pos; apply weight_nonneg, positive_nonneg; auto. }
    apply Rle_trans with (sum_over (leaves s) (fun x => (exp c - 1) * (weight ta x * weight tb x / Z) + Rabs (weight t x - weight t' x)) x0).
    { apply sum_over_le. intros x. replace (weight ta x * weight tb x / Z - weight t' x) with ((weight ta x * weight tb x / Z - weight t x) + (weight t x - weight t' x)) by ring.
      eapply Rle_trans; [apply Rabs_triang|]. apply Rplus_le_compat_r. apply close_diff; auto. }
    rewrite sum_over_plus, sum_over_scal.
    assert (sum_over (leaves s) (fun x => weight ta x * weight tb x / Z) x0 = 1) as ->.
    { transitivity (sum_over (leaves s) (fun x => / Z * (weight ta x * weight tb x)) x0); [apply sum_over_ext'; intros; unfold Rdiv; ring|]. rewrite sum_over_scal. fold Z. field. lra. }
    pose proof (rnear_tv d dl D0 DL s ND t t' x0 C NR NN NG NG') as TV. fold n in TV.
    replace (n * (2 * d + 4 * dl + 8 * e)) with (c + n * (2 * d + 3 * dl)) by (unfold c; ring). rewrite exp_plus.
    assert (1 <= exp c) by (pose proof (exp_ineq1_le c); lra). assert (1 <= exp (n * dl)) by (pose proof (exp_ineq1_le (n * dl)); lra).
    assert (1 <= exp (n * (2 * d + 3 * dl))). { pose proof (exp_ineq1_le (n * (2 * d + 3 * dl))). assert (0 <= n * (2 * d + 3 * dl)) by (apply Rmult_le_pos; lra). lra. }
    nra.
  - destruct M as [Z0 DJ]. split.
    { intros x0. rewrite Z0. rewrite (sum_over_ext' _ _ (fun _ => 0)); [rewrite sum_over_zero|]. { split; lra. } intros x. apply HW. apply DJ. }
    split; [|intros i [=]]. split; auto. intros _ x. apply HW, DJ.
Qed.
