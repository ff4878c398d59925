(** Multiply when the parameters are compared up to a factor (C55). *)
From Coq Require Import Reals Lra.
From Verif Require Import Base Param ParamProofs Vtree VtreeProofs Spec SpecProofs Heap Manager HeapProofs SerProofs RepProofs LoadProofs
  MulProofs TreeProofs Query QueryProofs MpeProofs SampleProofs ApproxMpe ApproxRep.
Local Open Scope R_scope.

Definition proper (v : N) (a b : R) : Prop := a + b = 1 /\ 0 < a /\ 0 < b.
Section ApproxMul.
Context {P : pops} (val : P -> R) (d : R) (HP : papprox P val d).
Notation mgr := (mgr P). Notation node_at := (node_at val). Notation InvP := (InvT val proper).
Lemma proper_near v a b a' b' : proper v a b -> proper v a' b' -> close d a a' -> Rabs (b - b') <= Rabs (a - a') /\ (0 < b -> 0 < b').
Proof.
  intros (A & _ & _) (B & _ & B') _. split; auto. replace (b - b') with (- (a - a')) by lra. rewrite Rabs_Ropp. lra.
Qed.
Lemma approx_zero_pos a : 0 < val a -> peq a pzero = false.
Proof. intros H. destruct (peq a pzero) eqn:E; auto. apply (approx_zero HP) in E. lra. Qed.
Lemma proper_top fl m v pt pf p : InvP fl m -> subtree (m_vt m) p = Some (Leaf v) -> val pt + val pf = 1 -> 0 < val pt -> 0 < val pf ->
  exists i m' nd pt' pf', GetPsddTopNode m v fl pt pf = Ok (i, m') /\ InvP fl m' /\ mext fl m m' /\ In i (m_live m') /\
    near_at val d m' i p (TTop v (val pt) (val pf)) /\ flag_of (m_heap m') i = Some fl /\
    nth_error (m_heap m') i = Some nd /\ n_body nd = BTop v pt' pf' /\ peq pt' pzero = false /\ peq pf' pzero = false.
Proof.
  intros I S N1 N2 N3. destruct (top_near val d HP proper proper_near fl m v pt pf p I S) as (i & m' & nd & pt' & pf' & E & I' & X & LV & A & FL & En & Eb & (_ & T1 & T2)).
  { split; auto. }
  exists i, m', nd, pt', pf'. rewrite !approx_zero_pos by auto. auto 12.
Qed.
Lemma multiply_near fl (m : mgr) a b p ta tb : InvP fl m -> node_at m a p ta -> node_at m b p tb -> safe ta tb ->
  exists r m', Multiply m a b fl = Ok (r, m') /\ InvP fl m' /\ mext fl m m' /\ mul_okG val (near_at val d) fl m' p ta tb r.
Proof.
  exact (multiplyG_spec val HP InvP (near_at val d) (fun fl m I => proj1 I) (near_at_ext val d) (near_at_conforms val d)
    (literal_near val d HP proper) proper_top (conformed_near val d HP proper) approx_zero_pos fl m a b p ta tb).
Qed.
Lemma multiply_near_null fl (m : mgr) a b p ta tb r m' : InvP fl m -> node_at m a p ta -> node_at m b p tb -> safe ta tb ->
  Multiply m a b fl = Ok (r, m') -> (fst r = None <-> forall x, weight ta x * weight tb x = 0).
Proof.
  exact (multiplyG_null val HP InvP (near_at val d) (fun fl m I => proj1 I) (near_at_ext val d) (near_at_conforms val d)
    (literal_near val d HP proper) proper_top (conformed_near val d HP proper) approx_zero_pos fl m a b p ta tb r m').
Qed.
(** ** Final form *)
Lemma multiply_approx fl (m : mgr) a b p s ta tb : Wf m -> tops_in val proper m fl -> subtree (m_vt m) p = Some s ->
  vt_of (m_heap m) a = Some p -> vt_of (m_heap m) b = Some p -> Rep val (m_heap m) a ta -> Rep val (m_heap m) b tb -> positive ta -> positive tb ->
  exists r z m', Multiply m a b fl = Ok ((r, z), m') /\ mext fl m m' /\ Wf m' /\ tops_in val proper m' fl /\
    (forall x0, val z = sum_over (leaves s) (fun x => weight ta x * weight tb x) x0) /\
    (r = None <-> forall x, weight ta x * weight tb x = 0) /\
    forall i, r = Some i -> vt_of (m_heap m') i = Some p /\ flag_of (m_heap m') i = Some fl /\ In i (m_live m') /\
      exists t, Rep val (m_heap m') i t /\ conforms s t /\ positive t /\ (forall x, base t x = base ta x && base tb x) /\
        (deterministic ta -> deterministic tb -> deterministic t) /\
        forall x0, sum_over (leaves s) (fun x => Rabs (weight ta x * weight tb x / val z - weight t x)) x0 <= exp (INR (2 * vsize s) * d) - 1.
Proof.
  intros W TI S Va Vb Ra Rb Pa Pb. pose proof (positive_safe _ Pa _ Pb) as SF.
  destruct (multiply_near fl m a b p ta tb (conj W TI) (conj Va Ra) (conj Vb Rb) SF) as ([r z] & m' & E & [W' TI'] & X & M).
  pose proof (multiply_near_null fl m a b p ta tb (r, z) m' (conj W TI) (conj Va Ra) (conj Vb Rb) SF E) as NU. cbn [fst] in NU.
  pose proof (subtree_nodup (m_vt m) (wf_leaves _ W) p s S) as ND.
  exists r, z, m'. split; auto. split; auto. split; auto. split; auto. unfold mul_okG in M. cbn [fst snd] in M. destruct r as [i|].
  - destruct M as (t & (t' & A & NR) & PO & FL & LV).
    destruct (node_at_conforms val m' i p t' W' A) as (s' & S' & C'). rewrite (me_vt _ _ _ X) in S'. assert (s' = s) as -> by congruence.
    pose proof (near_conforms d t s t' NR C') as C. pose proof (po_z _ _ _ _ PO) as Z0.
    split.
    { intros x0. rewrite <- (Rmult_1_r (val z)), <- (normalized_total s t x0 ND C (po_norm _ _ _ _ PO)), <- sum_over_scal. apply sum_over_ext'. intros x. rewrite <- (po_weight _ _ _ _ PO). ring. }
    split; auto. intros j [= <-]. destruct A as [A1 A2]. split; auto. split; auto. split; auto.
    exists t'. split; auto. split; auto. split; [eapply near_positive; eauto; apply PO|].
    split; [intros x; rewrite (near_base d t t' x NR); apply PO|]. split; [intros Da Db; eapply near_deterministic; eauto; apply PO; auto|].
    intros x0. eapply Rle_trans; [|apply (near_tv d (approx_pos HP) s ND t t' x0 C NR (po_norm _ _ _ _ PO))].
    + unfold tv. right. apply sum_over_ext'. intros x. rewrite <- (po_weight _ _ _ _ PO). do 2 f_equal. field. lra.
    + apply positive_nonneg, PO.
    + eapply (Rep_nonneg val HP); eauto.
  - destruct M as [Z0 DJ]. split.
    { intros x0. rewrite Z0. rewrite (sum_over_ext' _ _ (fun _ => 0)); [rewrite sum_over_zero; auto|]. intros x. apply NU. auto. }
    split; auto. intros i [=].
Qed.
End ApproxMul.
