(** DirectSample with rounded arithmetic (C65). *)
From Coq Require Import Reals Lra Psatz FunctionalExtensionality.
From Verif Require Import Base Param ParamProofs Vtree VtreeProofs Spec SpecProofs Heap Manager HeapProofs SerProofs RepProofs LoadProofs
  MulProofs TreeProofs Query QueryProofs MpeProofs SampleProofs BoxProofs Round RoundProofs RoundEval RoundMarg RoundMul.
Local Open Scope R_scope.

Lemma f2_len {A A'} (Q : A -> A' -> Prop) l l' : Forall2 Q l l' -> length l = length l'.
Proof. intros F. induction F; simpl; auto. Qed.
Section RSample.
Context {P : pops} (val : P -> R) (B e d : R) (HP : pround P val B e d).
Notation heap := (heap P). Notation Rep := (Rep val).
Lemma acc_step M0 (acc wv : P) s j : close (INR j * e) s (val acc) -> range M0 s -> range M0 (val wv) -> range M0 (s + val wv) -> M0 + INR (S j) * e <= B ->
  close (INR (S j) * e) (s + val wv) (val (padd acc wv)).
Proof.
  intros C Rs Rw Rsw HB. pose proof (rd_e HP) as E0. pose proof (rd_nonneg HP) as V0. pose proof (pos_INR j) as J0. rewrite S_INR in *.
  assert (0 <= INR j * e) as J1 by (apply Rmult_le_pos; auto).
  assert (close (INR j * e) (s + val wv) (val acc + val wv)) as C1 by (apply close_add; auto; apply close_refl; auto).
  replace ((INR j + 1) * e) with (INR j * e + e) in * by ring. eapply close_trans; [exact C1|]. apply (rd_add HP).
  - eapply range_weaken; [|eapply range_close; [exact Rs|exact C|auto]]. lra.
  - eapply range_weaken; [|exact Rw]. lra.
  - eapply range_weaken; [|eapply range_close; [exact Rsw|exact C1|pose proof (V0 acc); pose proof (V0 wv); lra]]. lra.
Qed.
(** what one selection does *)
Lemma pickR (h : heap) u M0 n : M0 + INR n * e <= B -> range B (val u) -> forall es tes, Forall2 (ElemRep val h) es tes -> forall acc s j,
  close (INR j * e) s (val acc) -> range M0 s -> (forall l1 l2, tes = l1 ++ l2 -> range M0 (s + rsum tw l1)) -> (forall te, In te tes -> range M0 (tw te)) -> (j + length es <= n)%nat ->
  (Forall (fun te => 0 < tw te) tes -> s <= exp (INR n * e + d) * val u ->
     (exists k el te v, pick u acc es = Ok el /\ nth_error es k = Some el /\ nth_error tes k = Some te /\ close (INR n * e + d) (val u) v /\
        s + rsum tw (firstn k tes) <= v /\ v < s + rsum tw (firstn k tes) + tw te) \/
     (pick u acc es = Abort /\ s + rsum tw tes <= exp (INR n * e + d) * val u)) /\
  (forall k te, nth_error tes k = Some te -> (s + rsum tw (firstn k tes)) * exp (INR n * e + d) <= val u -> val u < (s + rsum tw (firstn k tes) + tw te) * exp (- (INR n * e + d)) ->
     exists el, pick u acc es = Ok el /\ nth_error es k = Some el).
Proof.
  intros HB RU es tes F. pose proof (rd_e HP) as E0. pose proof (rd_d HP) as D0. pose proof (rd_nonneg HP) as V0. set (c := INR n * e + d).
  induction F as [|el te es tes (A1 & A2 & A3) F IH]; intros acc s j Cs Rs Rp Rw Hn.
  - split; [|intros [|k] ? ?; discriminate]. intros _ H. right. simpl. rewrite Rplus_0_r. auto.
  - cbn [pick]. set (acc' := padd acc (e_param el)).
    assert (tw te = val (e_param el)) as W by (rewrite A3; reflexivity).
    assert (range M0 (s + tw te)) as R1 by (specialize (Rp [te] tes eq_refl); simpl in Rp; rewrite Rplus_0_r in Rp; auto).
    assert (INR (S j) * e <= INR n * e) as JN. { apply Rmult_le_compat_r; auto. apply le_INR. simpl in Hn. lia. }
    assert (close (INR (S j) * e) (s + tw te) (val acc')) as C1.
    { rewrite W. apply (acc_step M0); auto; try (rewrite <- W; auto); [apply Rw; left; auto|lra]. }
    assert (0 <= INR (S j) * e) as J0 by (apply Rmult_le_pos; auto; apply pos_INR).
    assert (close (INR n * e) (s + tw te) (val acc')) as C2 by (eapply close_weaken; [exact JN|exact (range_nonneg _ _ R1)|auto|exact C1]).
    assert (range B (val acc')) as R2 by (eapply range_weaken; [|eapply range_close; [exact R1|exact C1|auto]]; lra).
    assert (exp (INR n * e) <= exp c) as Ec by (apply exp_mono; unfold c; lra).
    pose proof (range_nonneg _ _ R1) as S1. pose proof (range_nonneg _ _ Rs) as S0. pose proof (V0 u) as U0. pose proof (exp_pos c) as EP.
    assert (exp c * exp (- c) = 1) as EI by (rewrite <- exp_plus; replace (c + - c) with 0 by ring; apply exp_0).
    specialize (IH acc' (s + tw te) (S j) C1 R1).
    destruct IH as [IH1 IH2].
    { intros l1 l2 ->. specialize (Rp (te :: l1) l2 eq_refl). rewrite rsum_cons in Rp. rewrite Rplus_assoc. auto. }
    { intros; apply Rw; right; auto. }
    { simpl in Hn. lia. }
    destruct (plt u acc') eqn:E.
    + apply (rd_lt HP) in E. split.
      * intros Po Hs. left. exists 0%nat, el, te, (Rmax (val u * exp (- c)) s). inversion Po as [|? ? Pt _]; subst. simpl firstn. simpl rsum. rewrite Rplus_0_r.
        split; auto. split; auto. split; auto. destruct C2 as [C2 _].
        assert (val u * exp (- c) < s + tw te) as Hu.
        { apply Rmult_lt_reg_l with (exp c); auto. replace (exp c * (val u * exp (- c))) with (val u * (exp c * exp (- c))) by ring. rewrite EI, Rmult_1_r. nra. }
        assert (0 < exp (- c)) by apply exp_pos. assert (exp (- c) <= exp c). { apply exp_mono. unfold c. pose proof (pos_INR n). nra. }
        split; [|split; [apply Rmax_r|unfold Rmax; destruct (Rle_dec _ _); lra]]. split.
        -- unfold Rmax. destruct (Rle_dec _ _); [auto|nra].
        -- apply Rle_trans with (exp c * (val u * exp (- c))); [replace (exp c * (val u * exp (- c))) with (val u * (exp c * exp (- c))) by ring; rewrite EI; lra|].
           apply Rmult_le_compat_l; [lra|apply Rmax_l].
      * intros [|k] te' K Lo Hi; simpl in K.
        -- injection K as <-. exists el. auto.
        -- exfalso. simpl firstn in Lo. rewrite rsum_cons in Lo. destruct C2 as [C2 _].
           assert (0 <= rsum tw (firstn k tes)). { apply rsum_nonneg. intros a Ha. apply (range_nonneg M0), Rw. right. rewrite <- (firstn_skipn k tes). apply in_or_app; auto. }
           nra.
    + apply (rd_near HP) in E; auto. destruct C2 as [C2 C3].
      assert (s + tw te <= exp c * val u) as Hs'.
      { unfold c. rewrite exp_plus. pose proof (exp_pos (INR n * e)). nra. }
      split.
      * intros Po Hs. inversion Po as [|? ? Pt Po']; subst. destruct (IH1 Po' Hs') as [(k & el' & te' & v & Q1 & Q2 & Q3 & Q4 & Q5 & Q6)|[Q1 Q2]].
        -- left. exists (S k), el', te', v. simpl firstn. rewrite rsum_cons. rewrite <- Rplus_assoc. auto 10.
        -- right. rewrite rsum_cons, <- Rplus_assoc. auto.
      * intros [|k] te' K Lo Hi; simpl in K.
        -- exfalso. injection K as <-. simpl in Hi. rewrite Rplus_0_r in Hi.
           assert (exp c * val u < exp c * ((s + tw te) * exp (- c))) as G by (apply Rmult_lt_compat_l; auto).
           replace (exp c * ((s + tw te) * exp (- c))) with ((s + tw te) * (exp c * exp (- c))) in G by ring. rewrite EI in G. lra.
        -- simpl firstn in Lo, Hi. rewrite rsum_cons in Lo, Hi. rewrite <- Rplus_assoc in Lo, Hi.
           destruct (IH2 k te' K) as (el' & Q1 & Q2); auto. exists el'. auto.
Qed.
Lemma dec_ranges es : nonneg (TDec es) -> (forall te, In te es -> range (mag (TDec es)) (tw te)) /\ (forall l1 l2, es = l1 ++ l2 -> range (mag (TDec es)) (0 + rsum tw l1)).
Proof.
  intros NN. assert (forall te, In te es -> range (mag (TDec es) - ln (INR (length es))) (tw te)) as K.
  { intros te H. pose proof (mag_elem es te H). pose proof (mag_nonneg (tp te)). pose proof (mag_nonneg (ts te)). destruct (nonneg_elem es te NN H) as (_ & _ & W).
    apply (range_weaken (lg (tw te))); [lra|]. apply range_lg; auto. }
  split.
  - intros te H. eapply range_weaken; [|apply K; auto]. pose proof (ln_len es). lra.
  - intros l1 l2 E. rewrite Rplus_0_l. replace (mag (TDec es)) with (mag (TDec es) - ln (INR (length es)) + ln (INR (length es))) by ring.
    apply range_sum; [rewrite E, app_length; lia|]. intros te H. apply K. rewrite E. apply in_or_app; auto.
Qed.
Lemma mag_sub es te : nonneg (TDec es) -> In te es -> mag (tp te) <= mag (TDec es) /\ mag (ts te) <= mag (TDec es).
Proof.
  intros NN H. pose proof (mag_elem es te H). pose proof (mag_nonneg (tp te)). pose proof (mag_nonneg (ts te)). pose proof (lg_nonneg (tw te)). pose proof (ln_len es). lra.
Qed.
Lemma pick_rep (h : heap) es tes k el te : Forall2 (ElemRep val h) es tes -> nth_error es k = Some el -> nth_error tes k = Some te -> ElemRep val h el te.
Proof. intros F. revert k. induction F; intros [|k] G1 G2; try discriminate; [injection G1 as <-; injection G2 as <-; auto|eauto]. Qed.
Lemma child_lt (h : heap) i nd es el fuel : (exists root, heap_ok root h) -> nth_error h i = Some nd -> n_body nd = BDec es -> In el es -> (i < S fuel)%nat ->
  (e_prime el < fuel)%nat /\ (e_sub el < fuel)%nat.
Proof.
  intros [root HO] E1 E2 I L. specialize (HO _ _ E1). unfold node_ok in HO. rewrite E2 in HO. destruct HO as (_ & _ & FA). rewrite Forall_forall in FA.
  destruct (FA el I) as (Q1 & Q2 & _). lia.
Qed.
(** ** The sample is exact for nearby draws *)
Lemma sample_backR (h : heap) dl w s : 0 <= dl -> forall t i fuel x us, (exists root, heap_ok root h) -> Rep h i t -> conforms s t -> positive t -> norm_near dl t ->
  (width t <= w)%nat -> mag t + INR w * e <= B -> (i < fuel)%nat -> (vsize s <= length us)%nat -> (forall u, In u us -> range B (val u)) ->
  (exists x' us' y ds vs, DirectSample fuel h i x us = Ok (x', us') /\ us = ds ++ us' /\ Forall2 (fun u v => close (INR w * e + d) (val u) v) ds vs /\
     (forall r, sampled t (vs ++ r) r y) /\ (forall v, x' v = x v || y v) /\ (length us <= vsize s + length us')%nat) \/
  (DirectSample fuel h i x us = Abort /\ exists u, In u us /\ exp (- (INR w * e + d + dl)) <= val u).
Proof.
  intros DL. pose proof (rd_e HP) as E0. pose proof (rd_d HP) as D0. pose proof (rd_nonneg HP) as V0. pose proof (pos_INR w) as W0.
  assert (0 <= INR w * e) as WE by (apply Rmult_le_pos; auto).
  induction s as [z|a IHa b IHb]; intros t i fuel x us HO HR C PO NM HW HM Hf HU U; destruct fuel as [|fuel]; try lia; cbn [DirectSample]; unfold node_of;
    inversion HR as [j nd l E1 E2|j nd v pt pf E1 E2|j nd es tes E1 E2 E3]; subst; simpl in C; try contradiction; rewrite E1; cbn [get bind]; rewrite E2; pose proof (positive_nonneg _ PO) as NN.
  - left. exists (if Z.ltb 0 l then vset x (lit_var l) true else x), us. eexists. exists [], []. split; [reflexivity|]. split; auto. split; [constructor|]. split; [intros r; constructor|]. split; [|simpl; lia].
    intros v. unfold lit_var. destruct (Z.ltb 0 l); [|rewrite andb_false_r, orb_false_r; auto]. rewrite andb_true_r. unfold vset. destruct (N.eqb v (Z.abs_N l)); simpl; [|rewrite orb_false_r; auto]. rewrite orb_true_r. auto.
  - destruct us as [|u us]; [simpl in HU; lia|]. cbn [draw bind fst snd]. left.
    assert (range B (val pt)) as Rt. { unfold nonneg in NN. simpl in NN. cbn [mag] in HM. apply (range_weaken (lg (val pt))); [|apply range_lg; tauto]. pose proof (Rmax_l (lg (val pt)) (lg (val pf))). lra. }
    destruct (plt u pt) eqn:E.
    + apply (rd_lt HP) in E. exists (vset x v true), us. eexists. exists [u], [val u]. split; [reflexivity|]. split; auto. split; [constructor; [apply close_refl; [lra|auto]|constructor]|].
      split; [intros r; apply sm_true; auto|]. split; [|simpl; lia].
      intros v'. unfold vset. destruct (N.eqb v' v); simpl; [|rewrite orb_false_r; auto]. rewrite orb_true_r. auto.
    + apply (rd_near HP) in E; auto; [|apply U; left; auto]. exists x, us. eexists. exists [u], [Rmax (val u) (val pt)]. split; [reflexivity|]. split; auto. split; [|split].
      * constructor; [|constructor]. pose proof (V0 u) as U0. assert (exp d <= exp (INR w * e + d)) by (apply exp_mono; lra). pose proof (exp_ineq1_le (INR w * e + d)).
        split; [unfold Rmax; destruct (Rle_dec _ _); nra|]. apply Rle_trans with (1 * Rmax (val u) (val pt)); [rewrite Rmult_1_l; apply Rmax_l|]. apply Rmult_le_compat_r; [|lra].
        eapply Rle_trans; [exact U0|apply Rmax_l].
      * intros r. apply sm_false. apply Rmax_r.
      * split; [intros v0; rewrite orb_false_r; auto|simpl; lia].
  - destruct us as [|u us]; [simpl in HU; lia|]. cbn [draw bind fst snd].
    destruct C as [_ C]. rewrite Forall_forall in C. apply all_nodes_dec in NM as [N0 N]. rewrite Forall_forall in N. pose proof PO as PO'. apply all_nodes_dec in PO' as [P0 PO']. rewrite Forall_forall in PO'.
    destruct (dec_ranges tes NN) as [RA RB]. pose proof (f2_len _ _ _ E3) as LE. pose proof (width_len tes) as WL.
    destruct (pickR h u (mag (TDec tes)) w HM (U u (or_introl eq_refl)) es tes E3 pzero 0 0%nat) as [K _]; auto; try lia.
    { rewrite (rd_zero HP). simpl. rewrite Rmult_0_l. apply close_refl; lra. }
    { apply range_0. }
    destruct K as [(k & el & te & v & Ep & Ee & Ete & Cv & Lo & Hi)|[Ep Tot]]; auto.
    { apply Rmult_le_pos; [left; apply exp_pos|auto]. }
    + rewrite Ep. cbn [bind]. rewrite Rplus_0_l in Lo, Hi. destruct (pick_rep h es tes k el te E3 Ee Ete) as (A & D & _).
      pose proof Ete as I. apply nth_error_In in I. pose proof Ee as I'. apply nth_error_In in I'. destruct (C te I) as [C1 C2], (N te I) as [N1 N2], (PO' te I) as [P1 P2].
      destruct (child_lt h i nd es el fuel HO E1 E2 I' Hf) as [L1 L2]. destruct (width_elem tes te I) as [W1 W2]. destruct (mag_sub tes te NN I) as [M1 M2].
      simpl in HU. destruct (IHa (tp te) (e_prime el) fuel x us HO A C1 P1 N1) as [(x1 & us1 & y1 & d1 & v1 & S1 & S2 & S3 & S4 & S5 & S6)|[S1 (u' & S2 & S3)]]; auto; try lia; try lra.
      { intros; apply U; right; auto. }
      2:{ right. rewrite S1. cbn [bind]. split; auto. exists u'. split; auto. right; auto. }
      rewrite S1. cbn [bind fst snd].
      destruct (IHb (ts te) (e_sub el) fuel x1 us1 HO D C2 P2 N2) as [(x2 & us2 & y2 & d2 & v2 & T1 & T2 & T3 & T4 & T5 & T6)|[T1 (u' & T2 & T3)]]; auto; try lia; try lra.
      { intros u' Hu. apply U. right. rewrite S2. apply in_app_iff; auto. }
      2:{ right. rewrite T1. split; auto. exists u'. split; auto. right. rewrite S2. apply in_app_iff; auto. }
      left. rewrite T1. exists x2, us2, (fun v => y1 v || y2 v), (u :: d1 ++ d2), (v :: v1 ++ v2). split; auto. split; [rewrite S2, T2; simpl; rewrite app_assoc; auto|].
      split; [constructor; auto; apply Forall2_app; auto|]. split.
      * intros r. simpl. rewrite <- app_assoc. econstructor; eauto.
      * split; [intros v0; rewrite T5, S5, orb_assoc; auto|]. simpl. lia.
    + right. rewrite Ep. cbn [bind]. split; auto. exists u. split; [left; auto|]. rewrite Rplus_0_l in Tot. destruct N0 as [N0 _].
      apply Rmult_le_reg_l with (exp (INR w * e + d + dl)); [apply exp_pos|]. rewrite <- exp_plus. replace (INR w * e + d + dl + - (INR w * e + d + dl)) with 0 by ring. rewrite exp_0.
      rewrite Rplus_comm, exp_plus. pose proof (exp_pos dl). nra.
Qed.
Lemma sampled_base vt : NoDup (leaves vt) -> forall t us rest y, conforms vt t -> sampled t us rest y -> base t y = true.
Proof.
  induction vt as [w|a IHa b IHb]; intros ND t us rest y C S; inversion S; subst; simpl in C; try contradiction; try reflexivity.
  - simpl. unfold lit_sat. rewrite N.eqb_refl. simpl. apply eqb_reflx.
  - destruct C as [_ C]. rewrite Forall_forall in C. pose proof H as I. apply nth_error_In in I. destruct (C e0 I) as [C1 C2].
    simpl in ND. destruct (leaves_disjoint a b ND) as (NDa & NDb & DJ). cbn [base]. apply existsb_exists. exists e0. split; auto. apply andb_true_iff. split.
    + change (base (tp e0) (fun v => y1 v || y2 v) = true). rewrite (base_depends a _ C1 _ y1); [eapply IHa; eauto|]. intros v Hv. destruct (y2 v) eqn:G; [|apply orb_false_r].
      apply (sampled_in b _ _ _ _ C2 H3) in G. exfalso. eapply DJ; eauto.
    + change (base (ts e0) (fun v => y1 v || y2 v) = true). rewrite (base_depends b _ C2 _ y2); [eapply IHb; eauto|]. intros v Hv. destruct (y1 v) eqn:G; [|reflexivity].
      apply (sampled_in a _ _ _ _ C1 H2) in G. exfalso. eapply DJ; eauto.
Qed.
Theorem round_direct_sample (m : mgr P) i s t dl w fuel us : psdd_at val m i s t -> positive t -> norm_near dl t -> 0 <= dl -> (width t <= w)%nat -> mag t + INR w * e <= B ->
  (i < fuel)%nat -> (vsize s <= length us)%nat -> (forall u, In u us -> range B (val u)) ->
  (exists x us' ds vs, DirectSample fuel (m_heap m) i (fun _ => false) us = Ok (x, us') /\ us = ds ++ us' /\
     Forall2 (fun u v => close (INR w * e + d) (val u) v) ds vs /\ (forall r, sampled t (vs ++ r) r x) /\
     base t x = true /\ 0 < weight t x /\ (forall v, x v = true -> In v (leaves s))) \/
  (DirectSample fuel (m_heap m) i (fun _ => false) us = Abort /\ exists u, In u us /\ exp (- (INR w * e + d + dl)) <= val u).
Proof.
  intros A PO NM DL HW HM Hf HU U. destruct (psdd_at_facts val _ _ _ _ A) as (HO & ND & C & L & SO). destruct A as (_ & HR & _).
  destruct (sample_backR (m_heap m) dl w s DL t i fuel (fun _ => false) us (ex_intro (fun r => heap_ok r (m_heap m)) _ HO) HR C PO NM HW HM Hf HU U)
    as [(x & us' & y & ds & vs & Q1 & Q2 & Q3 & Q4 & Q5 & _)|Q]; [left|right; auto].
  assert (x = y) as ->. { apply functional_extensionality. intros v. rewrite Q5. reflexivity. }
  exists y, us', ds, vs. split; auto. split; auto. split; auto. split; auto. pose proof (sampled_base s ND t _ _ y C (Q4 [])) as Q6. split; auto.
  split; [apply weight_pos_base; auto|]. intros v Hv. eapply sampled_in; [exact C|apply (Q4 [])|auto].
Qed.
(** ** Its distribution *)
Definition shrink (c : R) (iv : R * R) : R * R :=
  (Rmin 1 (fst iv * exp c), Rmax (Rmin 1 (fst iv * exp c)) (Rmin 1 (snd iv * exp (- c)))).
Lemma in_shrink c iv u : fst (shrink c iv) <= u < snd (shrink c iv) -> fst iv * exp c <= u /\ u < snd iv * exp (- c).
Proof. unfold shrink. simpl. unfold Rmin, Rmax. repeat destruct (Rle_dec _ _); lra. Qed.
Lemma shrink_wide c iv : 0 <= fst iv -> 0 <= fst (shrink c iv) <= snd (shrink c iv) /\ snd (shrink c iv) <= 1.
Proof.
  intros H. assert (0 <= fst iv * exp c) by (apply Rmult_le_pos; auto; left; apply exp_pos). unfold shrink. simpl. unfold Rmin, Rmax. repeat destruct (Rle_dec _ _); lra.
Qed.
Lemma shrink_len c iv : Rmin 1 (snd iv * exp (- c)) - Rmin 1 (fst iv * exp c) <= snd (shrink c iv) - fst (shrink c iv) /\ 0 <= snd (shrink c iv) - fst (shrink c iv).
Proof. unfold shrink. simpl. unfold Rmax. destruct (Rle_dec _ _); lra. Qed.
Lemma shrink_le c iv : 0 <= c -> 0 <= fst iv <= snd iv -> snd (shrink c iv) - fst (shrink c iv) <= snd iv - fst iv.
Proof.
  intros H [H1 H2]. assert (1 <= exp c) as E1 by (pose proof (exp_ineq1_le c); lra). assert (exp (- c) <= 1) as E2 by (rewrite <- exp_0; apply exp_mono; lra).
  assert (fst iv <= fst iv * exp c) by nra. assert (snd iv * exp (- c) <= snd iv) by nra. unfold shrink. simpl. unfold Rmin, Rmax. repeat destruct (Rle_dec _ _); lra.
Qed.
Lemma shrink_in c iv u : 0 <= c -> 0 <= fst iv -> 0 <= snd iv -> fst (shrink c iv) <= u < snd (shrink c iv) -> fst iv <= u < snd iv.
Proof.
  intros H H1 H2 I. apply in_shrink in I as [I1 I2]. assert (1 <= exp c) as E1 by (pose proof (exp_ineq1_le c); lra). assert (exp (- c) <= 1) as E2 by (rewrite <- exp_0; apply exp_mono; lra). nra.
Qed.
Lemma sample_innerR (h : heap) w s : forall t i fuel x us b y, (exists root, heap_ok root h) -> Rep h i t -> conforms s t -> nonneg t ->
  (width t <= w)%nat -> mag t + INR w * e <= B -> (i < fuel)%nat -> (forall u, In u us -> range B (val u)) ->
  In (b, y) (boxes t) -> starts (map (shrink (INR w * e + d)) b) (map val us) ->
  exists x' us' ds, DirectSample fuel h i x us = Ok (x', us') /\ us = ds ++ us' /\ length ds = length b /\ (forall v, x' v = x v || y v).
Proof.
  pose proof (rd_e HP) as E0. pose proof (rd_d HP) as D0. pose proof (rd_nonneg HP) as V0. pose proof (pos_INR w) as W0.
  assert (0 <= INR w * e) as WE by (apply Rmult_le_pos; auto). set (c := INR w * e + d). assert (0 <= c) as C0 by (unfold c; lra).
  induction s as [z|a IHa b' IHb]; intros t i fuel x us b y HO HR C NN HW HM Hf U HB ST; destruct fuel as [|fuel]; try lia; cbn [DirectSample]; unfold node_of;
    inversion HR as [j nd l E1 E2|j nd v pt pf E1 E2|j nd es tes E1 E2 E3]; subst; simpl in C; try contradiction; rewrite E1; cbn [get bind]; rewrite E2.
  - simpl in HB. destruct HB as [HB|[]]. injection HB as <- <-. exists (if Z.ltb 0 l then vset x (lit_var l) true else x), us, []. split; [reflexivity|]. split; auto. split; auto.
    intros v. unfold lit_var. destruct (Z.ltb 0 l); [|rewrite andb_false_r, orb_false_r; auto]. rewrite andb_true_r. unfold vset. destruct (N.eqb v (Z.abs_N l)); simpl; [|rewrite orb_false_r; auto]. rewrite orb_true_r. auto.
  - subst z. assert (range B (val pt)) as Rt. { unfold nonneg in NN. simpl in NN. cbn [mag] in HM. apply (range_weaken (lg (val pt))); [|apply range_lg; tauto]. pose proof (Rmax_l (lg (val pt)) (lg (val pf))). lra. }
    destruct us as [|u us]. { exfalso. simpl in HB. destruct ST as (d0 & r0 & Ed & I). destruct d0; [|discriminate]. destruct HB as [HB|[HB|[]]]; injection HB as <- <-; inversion I. }
    cbn [draw bind fst snd]. destruct ST as (d0 & r0 & Ed & I). simpl in HB. destruct HB as [HB|[HB|[]]]; injection HB as <- <-; simpl in I; inversion I as [|? u0 ? d1 Iu I']; subst; injection Ed as <- _.
    + apply in_shrink in Iu as [_ Iu]. cbn [snd] in Iu. destruct (plt u pt) eqn:E.
      * exists (vset x v true), us, [u]. split; [reflexivity|]. split; auto. split; auto. intros v'. unfold vset. destruct (N.eqb v' v); simpl; [|rewrite orb_false_r; auto]. rewrite orb_true_r. auto.
      * exfalso. apply (rd_near HP) in E; auto; [|apply U; left; auto]. pose proof (V0 u) as U0. assert (exp d <= exp c) as Q by (apply exp_mono; unfold c; lra).
        assert (exp c * exp (- c) = 1) as EI by (rewrite <- exp_plus; replace (c + - c) with 0 by ring; apply exp_0). pose proof (exp_pos c).
        assert (exp c * val u < exp c * (val pt * exp (- c))) as G by (apply Rmult_lt_compat_l; auto). replace (exp c * (val pt * exp (- c))) with (val pt * (exp c * exp (- c))) in G by ring. rewrite EI in G. nra.
    + apply in_shrink in Iu as [Iu _]. cbn [fst] in Iu. destruct (plt u pt) eqn:E.
      * exfalso. apply (rd_lt HP) in E. pose proof (exp_ineq1_le c). pose proof (V0 pt). nra.
      * exists x, us, [u]. split; [reflexivity|]. split; auto. split; auto. intros v'. rewrite orb_false_r. auto.
  - rewrite boxes_dec in HB. apply in_dec_boxes in HB as (k & te & bp & bs & K & Bp & Bs & E). injection E as -> ->. cbn [map] in ST. rewrite map_app in ST. rewrite Rplus_0_l in ST.
    destruct us as [|u us]. { exfalso. destruct ST as (d0 & r0 & Ed & I). destruct d0; [|discriminate]. inversion I. }
    assert (fst (shrink c (rsum tw (firstn k tes), rsum tw (firstn k tes) + tw te)) <= val u < snd (shrink c (rsum tw (firstn k tes), rsum tw (firstn k tes) + tw te)) /\
            starts (map (shrink c) (fst bp) ++ map (shrink c) (fst bs)) (map val us)) as [Iu ST'].
    { destruct ST as (d0 & r0 & Ed & I). inversion I as [|? u0 ? d1 Iu I']; subst. injection Ed as <- Ed. split; auto. exists d1, r0. auto. }
    apply in_shrink in Iu as [I1 I2]. cbn [fst snd] in I1, I2. cbn [draw bind fst snd].
    destruct C as [_ C]. rewrite Forall_forall in C. destruct (dec_ranges tes NN) as [RA RB]. pose proof (f2_len _ _ _ E3) as LE. pose proof (width_len tes) as WL.
    destruct (pickR h u (mag (TDec tes)) w HM (U u (or_introl eq_refl)) es tes E3 pzero 0 0%nat) as [_ Kp]; auto; try lia.
    { rewrite (rd_zero HP). simpl. rewrite Rmult_0_l. apply close_refl; lra. }
    { apply range_0. }
    destruct (Kp k te K) as (el & Ep & Ee); [rewrite Rplus_0_l; exact I1|rewrite Rplus_0_l; exact I2|].
    rewrite Ep. cbn [bind]. destruct (pick_rep h es tes k el te E3 Ee K) as (A & D & _).
    pose proof K as I. apply nth_error_In in I. pose proof Ee as I'. apply nth_error_In in I'. destruct (C te I) as [C1 C2], (nonneg_elem tes te NN I) as (N1 & N2 & _).
    destruct (child_lt h i nd es el fuel HO E1 E2 I' Hf) as [L1 L2]. destruct (width_elem tes te I) as [Wp Ws]. destruct (mag_sub tes te NN I) as [M1 M2].
    destruct bp as [bp yp], bs as [bs ys]. cbn [fst snd] in *.
    destruct (starts_app _ _ _ ST') as (d1 & r1 & Ed & Id & ST2).
    destruct (IHa (tp te) (e_prime el) fuel x us bp yp HO A C1 N1) as (x1 & us1 & ds1 & S1 & S2 & S3 & S4); auto; try lia; try lra.
    { intros; apply U; right; auto. }
    { exists d1, r1. auto. }
    rewrite S1. cbn [bind fst snd].
    assert (map val us1 = r1) as Er. { rewrite S2, map_app in Ed. apply app_len_inj in Ed as [_ Ed]; auto. rewrite map_length, S3. rewrite (inside_length _ _ Id), map_length. auto. }
    destruct (IHb (ts te) (e_sub el) fuel x1 us1 bs ys HO D C2 N2) as (x2 & us2 & ds2 & T1 & T2 & T3 & T4); auto; try lia; try lra.
    { intros u' Hu. apply U. right. rewrite S2. apply in_app_iff; auto. }
    { rewrite Er. auto. }
    rewrite T1. exists x2, us2, (u :: ds1 ++ ds2). split; auto. split; [rewrite S2, T2; simpl; rewrite app_assoc; auto|]. split; [simpl; rewrite !app_length; lia|].
    intros v. rewrite T4, S4, orb_assoc. auto.
Qed.
End RSample.

Lemma boxes_order t : nonneg t -> forall B iv, In B (boxes t) -> In iv (fst B) -> 0 <= fst iv <= snd iv.
Proof.
  unfold nonneg. induction t as [l|v a b|es IH] using ptree_ind2; intros NN B iv HB Hi.
  - simpl in HB. destruct HB as [<-|[]]. contradiction.
  - destruct NN as [NN _]. simpl in HB, NN. destruct HB as [<-|[<-|[]]]; simpl in Hi; destruct Hi as [<-|[]]; simpl; lra.
  - rewrite boxes_dec in HB. destruct B as [bx y]. apply in_dec_boxes in HB as (k & e & bp & bs & K & Bp & Bs & E). injection E as -> _.
    apply all_nodes_dec in NN as [NW NN]. cbn [fst] in Hi. rewrite Rplus_0_l in Hi.
    rewrite Forall_forall in IH, NW, NN. pose proof (nth_error_In _ _ K) as He. destruct (IH e He) as [I1 I2]. destruct (NN e He) as [M1 M2].
    destruct Hi as [<-|Hi].
    + simpl. assert (0 <= rsum tw (firstn k es)). { apply rsum_nonneg. intros f Hf. apply NW. rewrite <- (firstn_skipn k es). apply in_or_app; auto. }
      pose proof (NW e He) as We. lra.
    + apply in_app_or in Hi as [Hi|Hi]; [eapply I1|eapply I2]; eauto.
Qed.
Lemma volume_shrink c b : 0 <= c -> (forall iv, In iv b -> 0 <= fst iv <= snd iv) -> 0 <= volume (map (shrink c) b) <= volume b.
Proof.
  intros C0. unfold volume. induction b as [|iv b IH]; intros H; cbn [map fold_right]; [lra|].
  destruct IH as [I1 I2]; [intros; apply H; right; auto|]. pose proof (H iv (or_introl eq_refl)) as Hi. pose proof (shrink_le c iv C0 Hi). pose proof (shrink_len c iv). split.
  - apply Rmult_le_pos; lra.
  - apply Rmult_le_compat; lra.
Qed.
Section Mass.
Context (c dl : R) (C0 : 0 <= c) (DL : 0 <= dl) (w : nat).
Let g := exp (dl + c) - exp (dl - c).
Let rho := exp (- dl) - INR (w + 2) * g.
Lemma g_nonneg : 0 <= g.
Proof. unfold g. pose proof (exp_mono (dl - c) (dl + c)). lra. Qed.
Lemma gap x : 0 <= x <= exp dl -> Rmin 1 (x * exp c) - Rmin 1 (x * exp (- c)) <= g.
Proof.
  intros [X0 X1]. assert (exp (- c) <= exp c) by (apply exp_mono; lra). assert (x * exp c - x * exp (- c) <= g).
  { unfold g. replace (dl - c) with (dl + - c) by ring. rewrite !exp_plus. nra. }
  assert (x * exp (- c) <= x * exp c) by nra. unfold Rmin. repeat destruct (Rle_dec _ _); lra.
Qed.
Lemma whole x : exp (- dl) <= x -> exp (- dl) - g <= Rmin 1 (x * exp (- c)).
Proof.
  intros X. assert (exp (- c) <= 1) as E1 by (rewrite <- exp_0; apply exp_mono; lra). assert (exp (- dl) <= 1) as E2 by (rewrite <- exp_0; apply exp_mono; lra).
  assert (1 <= exp dl) as E3 by (pose proof (exp_ineq1_le dl); lra). assert (1 <= exp c) as E4 by (pose proof (exp_ineq1_le c); lra). pose proof (exp_pos (- c)). pose proof (exp_pos (- dl)).
  assert (exp (- dl) * (1 - exp (- c)) <= g).
  { unfold g. replace (dl - c) with (dl + - c) by ring. rewrite !exp_plus. apply Rle_trans with (1 * (1 - exp (- c))); [nra|]. apply Rle_trans with (exp dl * (exp c - exp (- c))); [|lra]. apply Rmult_le_compat; lra. }
  assert (exp (- dl) * exp (- c) <= x * exp (- c)) by nra. pose proof g_nonneg. unfold Rmin. destruct (Rle_dec _ _); lra.
Qed.
Lemma rho_le1 : rho <= 1.
Proof. unfold rho. pose proof g_nonneg. assert (exp (- dl) <= 1) by (rewrite <- exp_0; apply exp_mono; lra). pose proof (pos_INR (w + 2)). nra. Qed.
Lemma rsum_prod {A A'} (f : A -> R) (f' : A' -> R) (l : list A) (l' : list A') (k : A -> A' -> R) q : (forall a b, In a l -> In b l' -> k a b = q * (f a * f' b)) ->
  rsum (fun ab => ab) (flat_map (fun a => map (k a) l') l) = q * (rsum f l * rsum f' l').
Proof.
  induction l as [|a l IH]; intros H; [simpl; ring|]. cbn [flat_map]. rewrite rsum_app, IH, rsum_cons by (intros; apply H; auto; right; auto).
  rewrite SpecProofs.rsum_map. rewrite (rsum_ext _ (fun b => (q * f a) * f' b)); [rewrite rsum_scal; ring|]. intros b Hb. rewrite (H a b); auto; [ring|left; auto].
Qed.
Definition ivol (B : box * inst) : R := volume (map (shrink c) (fst B)).
Lemma inner_total s : 0 <= rho -> forall t, conforms s t -> nonneg t -> norm_near dl t -> (width t <= w)%nat -> rho ^ vsize s <= rsum ivol (boxes t).
Proof.
  intros R0. pose proof rho_le1 as R1. pose proof g_nonneg as G0. unfold norm_near. induction s as [v|a IHa b IHb]; intros t C NN NM HW; destruct t as [l|v' x y|es]; simpl in C; try contradiction.
  - simpl. unfold ivol. simpl. lra.
  - cbn [vsize]. rewrite pow_1. simpl. unfold ivol, volume. cbn [map fst snd fold_right]. rewrite !Rmult_1_r, Rplus_0_r.
    destruct (shrink_len c (0, x)) as [L1 _], (shrink_len c (x, x + y)) as [L2 _]. cbn [fst snd] in L1, L2. rewrite Rmult_0_l in L1.
    destruct NM as [[N1 N2] _]. unfold nonneg in NN. simpl in NN. destruct NN as [[X0 Y0] _].
    assert (x <= exp dl) as XB by lra. assert (exp (- dl) <= x + y) as XL. { apply Rmult_le_reg_l with (exp dl); [apply exp_pos|]. rewrite <- exp_plus. replace (dl + - dl) with 0 by ring. rewrite exp_0. exact N1. }
    pose proof (gap x (conj X0 XB)). pose proof (whole (x + y) XL). assert (Rmin 1 0 = 0) as M0 by (rewrite Rmin_right; lra). rewrite M0 in L1.
    unfold rho. assert (2 <= INR (w + 2)) as W2. { rewrite plus_INR. simpl. pose proof (pos_INR w). lra. } nra.
  - destruct C as [NE C]. rewrite boxes_dec. apply all_nodes_dec in NM as [[N1 N2] N]. pose proof NN as NN0. unfold nonneg in NN. apply all_nodes_dec in NN as [NW NN]. rewrite Forall_forall in C, NW, NN, N.
    assert (forall te, In te es -> rho ^ vsize a <= rsum ivol (boxes (tp te)) /\ rho ^ vsize b <= rsum ivol (boxes (ts te))) as I.
    { intros te H. destruct (C te H) as [C1 C2], (N te H) as [M1 M2], (NN te H) as [K1 K2], (width_elem es te H) as [W1 W2]. split; [apply IHa|apply IHb]; auto; lia. }
    assert (0 <= rho ^ vsize a) as Qa by (apply pow_le; auto). assert (0 <= rho ^ vsize b) as Qb by (apply pow_le; auto). set (Q := rho ^ vsize a * rho ^ vsize b).
    assert (0 <= Q) as Q0 by (apply Rmult_le_pos; auto).
    assert (forall l c0, (forall te, In te l -> In te es) -> 0 <= c0 -> c0 + rsum tw l <= exp dl ->
      Q * (Rmin 1 ((c0 + rsum tw l) * exp (- c)) - Rmin 1 (c0 * exp c) - INR (length l) * g) <= rsum ivol (dec_boxes c0 l)) as K.
    { induction l as [|te l IH]; intros c0 Hl Hc Ht.
      - simpl. rewrite Rplus_0_r, Rmult_0_l. assert (c0 * exp (- c) <= c0 * exp c). { apply Rmult_le_compat_l; auto. apply exp_mono. lra. }
        assert (Rmin 1 (c0 * exp (- c)) <= Rmin 1 (c0 * exp c)) by (unfold Rmin; repeat destruct (Rle_dec _ _); lra). nra.
      - cbn [dec_boxes]. rewrite rsum_app, rsum_cons in *. assert (0 <= tw te) as T0 by (apply NW, Hl; left; auto).
        specialize (IH (c0 + tw te) ltac:(intros; apply Hl; right; auto) ltac:(lra) ltac:(lra)).
        destruct (I te (Hl te (or_introl eq_refl))) as [I1 I2]. destruct (shrink_len c (c0, c0 + tw te)) as [L1 L2]. cbn [fst snd] in L1.
        set (len := snd (shrink c (c0, c0 + tw te)) - fst (shrink c (c0, c0 + tw te))) in *.
        assert (rsum ivol (flat_map (fun bp => map (join c0 (tw te) bp) (boxes (ts te))) (boxes (tp te))) = len * (rsum ivol (boxes (tp te)) * rsum ivol (boxes (ts te)))) as EV.
        { rewrite <- (rsum_prod ivol ivol (boxes (tp te)) (boxes (ts te)) (fun bp bs => ivol (join c0 (tw te) bp bs)) len).
          - transitivity (rsum (fun v : R => v) (map ivol (flat_map (fun bp => map (join c0 (tw te) bp) (boxes (ts te))) (boxes (tp te))))); [rewrite SpecProofs.rsum_map; reflexivity|].
            f_equal. rewrite !flat_map_concat_map, concat_map, map_map. f_equal. apply map_ext. intros bp. rewrite map_map. reflexivity.
          - intros bp bs _ _. unfold ivol, join. cbn [fst map]. rewrite map_app. unfold volume at 1. cbn [fold_right].
            change (fold_right _ 1 (map (shrink c) (fst bp) ++ map (shrink c) (fst bs))) with (volume (map (shrink c) (fst bp) ++ map (shrink c) (fst bs))). rewrite volume_app. reflexivity. }
        rewrite EV. assert (Q <= rsum ivol (boxes (tp te)) * rsum ivol (boxes (ts te))) as QV by (apply Rmult_le_compat; auto).
        assert (0 <= rsum tw l) as TL. { apply rsum_nonneg. intros f Hf. apply NW, Hl. right; auto. }
        pose proof (gap (c0 + tw te) ltac:(lra)) as GP. cbn [length]. rewrite S_INR.
        apply Rle_trans with (len * Q + Q * (Rmin 1 ((c0 + tw te + rsum tw l) * exp (- c)) - Rmin 1 ((c0 + tw te) * exp c) - INR (length l) * g)).
        + rewrite <- Rplus_assoc. nra.
        + apply Rplus_le_compat; auto. apply Rmult_le_compat_l; auto. }
    specialize (K es 0 ltac:(auto) (Rle_refl 0)). rewrite Rplus_0_l, Rmult_0_l in K. eapply Rle_trans; [|apply K; lra].
    assert (exp (- dl) <= rsum tw es) as XL. { apply Rmult_le_reg_l with (exp dl); [apply exp_pos|]. rewrite <- exp_plus. replace (dl + - dl) with 0 by ring. rewrite exp_0. exact N1. }
    pose proof (whole _ XL). assert (Rmin 1 0 = 0) as -> by (rewrite Rmin_right; lra).
    replace (vsize (VNode a b)) with (S (vsize a + vsize b)) by (simpl; lia). rewrite <- tech_pow_Rmult, pow_add. fold Q. rewrite Rmult_comm. apply Rmult_le_compat_l; auto. unfold rho.
    assert (INR (length es) + 1 <= INR (w + 2)). { rewrite <- S_INR. apply le_INR. pose proof (width_len es). lia. } nra.
Qed.
End Mass.
Theorem round_sample_boxes {P : pops} (val : P -> R) B e d : pround P val B e d -> forall (m : mgr P) i s t dl w fuel, psdd_at val m i s t -> norm_near dl t -> 0 <= dl ->
  (width t <= w)%nat -> mag t + INR w * e <= B -> (i < fuel)%nat ->
  let c := INR w * e + d in let rho := exp (- dl) - INR (w + 2) * (exp (dl + c) - exp (dl - c)) in 0 <= rho ->
  exists Bs : list (box * inst),
    (forall us k b x, (forall u, In u us -> range B (val u)) -> nth_error Bs k = Some (b, x) -> starts b (map val us) ->
       (exists ds us', us = ds ++ us' /\ inside b (map val ds) /\ DirectSample fuel (m_heap m) i (fun _ => false) us = Ok (x, us')) /\
       forall k' b' x', nth_error Bs k' = Some (b', x') -> starts b' (map val us) -> k' = k) /\
    (forall b x iv, In (b, x) Bs -> In iv b -> 0 <= fst iv <= snd iv /\ snd iv <= 1) /\
    (forall x, rsum (fun B => if same_on (leaves s) x (snd B) then volume (fst B) else 0) Bs <= weight t x) /\
    rho ^ vsize s <= rsum (fun B => volume (fst B)) Bs.
Proof.
  intros HP m i s t dl w fuel A NM DL HW HM Hf c rho R0. destruct (psdd_at_facts val _ _ _ _ A) as (HO & ND & C & _). destruct A as (_ & HR & _).
  pose proof (Rep_nonneg_r val B e d HP _ _ _ HR) as NN. assert (0 <= c) as C0. { unfold c. pose proof (pos_INR w). pose proof (rd_e HP). pose proof (rd_d HP). nra. }
  exists (map (fun B : box * inst => (map (shrink c) (fst B) : box, snd B)) (boxes t)).
  assert (forall b us, In b (map fst (boxes t)) -> starts (map (shrink c) b) us -> starts b us) as SB.
  { intros b us Hb (ds & r & -> & I). exists ds, r. split; auto. apply in_map_iff in Hb as ([b' y] & <- & Hb). cbn [fst] in *. pose proof (fun iv => boxes_order t NN (b', y) iv Hb) as OR. cbn [fst] in OR.
    clear - I OR C0. revert ds I. induction b' as [|iv b IH]; intros ds I; inversion I as [|? u ? d1 Iu I']; subst; [constructor|]. constructor; [|apply IH; auto; intros; apply OR; right; auto].
    destruct (OR iv (or_introl eq_refl)). apply (shrink_in c); auto. lra. }
  split; [|split; [|split]].
  - intros us k b x U HB ST. rewrite nth_error_map in HB. destruct (nth_error (boxes t) k) as [[b0 x0]|] eqn:E; [|discriminate HB]. injection HB as <- <-. pose proof (nth_error_In _ _ E) as HIn. split.
    + destruct (sample_innerR val B e d HP (m_heap m) w s t i fuel (fun _ => false) us b0 x0 (ex_intro (fun r => heap_ok r (m_heap m)) _ HO) HR C NN HW HM Hf U HIn ST) as (x' & us' & ds & Q1 & Q2 & Q3 & Q4).
      assert (x' = x0) as ->. { apply functional_extensionality. intros v. rewrite Q4. reflexivity. }
      exists ds, us'. split; auto. split; auto. destruct ST as (d1 & r1 & Ed & I). rewrite Q2, map_app in Ed.
      destruct (app_len_inj _ _ _ _ ltac:(rewrite map_length, Q3, (inside_length _ _ I), map_length; reflexivity) Ed) as [-> _]. auto.
    + intros k' b' x' HB' ST'. rewrite nth_error_map in HB'. destruct (nth_error (boxes t) k') as [[b1 x1]|] eqn:E'; [|discriminate HB']. injection HB' as <- <-.
      pose proof (boxes_apart t NN) as AP. assert (starts b0 (map val us)) as S0 by (apply SB; auto; apply in_map_iff; exists (b0, x0); auto).
      assert (starts b1 (map val us)) as S1. { apply SB; auto. apply in_map_iff. exists (b1, x1). split; auto. eapply nth_error_In; eauto. }
      destruct (Nat.lt_total k' k) as [H|[H|H]]; auto; exfalso; [apply (fop_nth _ _ AP _ _ _ _ H E' E (map val us))|apply (fop_nth _ _ AP _ _ _ _ H E E' (map val us))]; auto.
  - intros b x iv HB Hi. apply in_map_iff in HB as ([b0 x0] & HB & HIn). injection HB as <- <-. apply in_map_iff in Hi as (iv0 & <- & Hi). apply shrink_wide. apply (boxes_order t NN _ _ HIn Hi).
  - intros x. rewrite SpecProofs.rsum_map. cbn [fst snd]. rewrite <- (boxes_weight s ND t x C). apply rsum_le. intros [b y] HB. unfold part. cbn [fst snd].
    destruct (same_on _ _ _); [|lra]. apply volume_shrink; auto. intros iv Hi. exact (boxes_order t NN _ _ HB Hi).
  - rewrite SpecProofs.rsum_map. cbn [fst]. exact (inner_total c dl C0 DL w s R0 t C NN NM HW).
Qed.
