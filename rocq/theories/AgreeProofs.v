(** The queries of one PSDD agree with each other. *)
From Coq Require Import Reals Lra.
From Verif Require Import Base Param ParamProofs Vtree VtreeProofs Spec SpecProofs Heap Manager HeapProofs SerProofs RepProofs OrderProofs CanonProofs
  MulProofs ReplayProofs TreeProofs Query QueryProofs MpeProofs SampleProofs ProductTrees ProductNodes ProductProofs.
Local Open Scope R_scope.

Lemma sum_over_term vs f x x0 : depends_on vs f -> (forall y, 0 <= f y) -> f x <= sum_over vs f x0.
Proof.
  intros D N. revert x0. enough (forall ws x0, (forall v, In v vs -> In v ws \/ x v = x0 v) -> f x <= sum_over ws f x0) as G by (intros; apply G; auto).
  induction ws as [|w ws IH]; intros x0 H; simpl.
  - rewrite (D x x0); [lra|]. intros v Hv. destruct (H v Hv) as [[]|E]; auto.
  - pose proof (sum_over_nonneg ws f (upd x0 w true) N). pose proof (sum_over_nonneg ws f (upd x0 w false) N).
    assert (f x <= sum_over ws f (upd x0 w (x w))) as L.
    { apply IH. intros v Hv. unfold upd. destruct (N.eqb_spec v w) as [->|NE]; [auto|]. destruct (H v Hv) as [[E|Hw]|E]; auto. congruence. }
    destruct (x w); lra.
Qed.
Lemma sum_over_pos vs f x0 : depends_on vs f -> (forall y, 0 <= f y) -> (0 < sum_over vs f x0 <-> exists y, 0 < f y).
Proof.
  intros D N. split.
  - intros G. assert (~ (forall y, f y <= 0)) as H.
    { intros H. pose proof (sum_over_le vs f (fun _ => 0) x0 H) as L. rewrite sum_over_zero in L. lra. }
    revert G. clear H. revert x0. induction vs as [|w ws IH]; intros x0; simpl; [eauto|]. intros G.
    assert (forall ws x1, 0 < sum_over ws f x1 -> exists y, 0 < f y) as K.
    { clear. induction ws as [|v ws IH]; intros x1; simpl; [eauto|]. intros G. destruct (Rlt_le_dec 0 (sum_over ws f (upd x1 v true))); [eauto|].
      apply (IH (upd x1 v false)). lra. }
    destruct (Rlt_le_dec 0 (sum_over ws f (upd x0 w true))); [eauto|]. apply (K ws (upd x0 w false)). lra.
  - intros [y Hy]. pose proof (sum_over_term vs f y x0 D N). lra.
Qed.
(** one more observation *)
Definition also (mask : inst) (v : N) : inst := fun w => N.eqb w v || mask w.
Lemma agreesb_also vs mask x v b y : In v vs -> mask v = false ->
  agreesb vs (also mask v) (upd x v b) y = agreesb vs mask x y && Bool.eqb (y v) b.
Proof.
  intros Hv Hm. apply eq_true_iff_eq. rewrite andb_true_iff, !agreesb_spec. unfold agrees, also, upd. split.
  - intros H. split.
    + intros w Hw Mw. specialize (H w Hw). rewrite Mw, orb_true_r in H. destruct (N.eqb_spec w v) as [Q|Q]; [congruence|auto].
    + specialize (H v Hv). rewrite N.eqb_refl in H. rewrite (H eq_refl). apply eqb_reflx.
  - intros [H E] w Hw Mw. apply eqb_prop in E. destruct (N.eqb_spec w v) as [Q|Q]; [rewrite Q; auto|]. apply H; auto.
Qed.
Lemma agreesb_or vs mask1 mask2 x y : agreesb vs (fun w => mask1 w || mask2 w) x y = agreesb vs mask1 x y && agreesb vs mask2 x y.
Proof.
  apply eq_true_iff_eq. rewrite andb_true_iff, !agreesb_spec. unfold agrees. split.
  - intros H. split; intros w Hw Mw; apply H; auto; rewrite Mw; auto using orb_true_r.
  - intros [H1 H2] w Hw Mw. apply orb_true_iff in Mw as [Mw|Mw]; auto.
Qed.
Lemma masked_depends s t mask x : conforms s t -> depends_on (leaves s) (fun y => if agreesb (leaves s) mask x y then weight t y else 0).
Proof. intros C y z E. rewrite (agreesb_depends _ mask x y z E), (weight_depends s t C y z E). reflexivity. Qed.

Section Agree.
Context {P : pops} {val : P -> R}.
Notation psdd_at := (psdd_at val).

Theorem total_probability (HP : parith P val) (m : mgr P) i s t mask x v : psdd_at m i s t -> tops_one t -> In v (leaves s) -> mask v = false ->
  exists e e1 e0, Evaluate (m_heap m) mask x i = Ok e /\ Evaluate (m_heap m) (also mask v) (upd x v true) i = Ok e1 /\
    Evaluate (m_heap m) (also mask v) (upd x v false) i = Ok e0 /\ val e = val e1 + val e0.
Proof.
  intros A T Hv Hm. destruct (evaluate_full val HP m i s t mask x A) as (e & E & _ & V & _).
  destruct (evaluate_full val HP m i s t (also mask v) (upd x v true) A) as (e1 & E1 & _ & V1 & _).
  destruct (evaluate_full val HP m i s t (also mask v) (upd x v false) A) as (e0 & E0 & _ & V0 & _).
  exists e, e1, e0. do 3 (split; auto). rewrite (V T (fun _ => true)), (V1 T (fun _ => true)), (V0 T (fun _ => true)), <- sum_over_plus.
  apply sum_over_ext'. intros y. rewrite !agreesb_also by auto. destruct (agreesb (leaves s) mask x y), (y v); simpl; lra.
Qed.
Theorem more_evidence (HP : parith P val) (m : mgr P) i s t mask x mask' x' : psdd_at m i s t -> tops_one t -> nonneg t ->
  (forall v, In v (leaves s) -> mask v = true -> mask' v = true /\ x' v = x v) ->
  exists e e', Evaluate (m_heap m) mask x i = Ok e /\ Evaluate (m_heap m) mask' x' i = Ok e' /\ 0 <= val e' <= val e.
Proof.
  intros A T N H. destruct (evaluate_full val HP m i s t mask x A) as (e & E & _ & V & _).
  destruct (evaluate_full val HP m i s t mask' x' A) as (e' & E' & _ & V' & _). exists e, e'. do 2 (split; auto).
  rewrite (V T (fun _ => true)), (V' T (fun _ => true)). pose proof (fun y => weight_nonneg t y N) as W. split.
  - apply sum_over_nonneg. intros y. destruct (agreesb _ _ _ _); auto. lra.
  - apply sum_over_le. intros y. destruct (agreesb (leaves s) mask' x' y) eqn:B'.
    + assert (agreesb (leaves s) mask x y = true) as ->; [|lra]. apply agreesb_spec. apply agreesb_spec in B'. intros v Hv Mv. destruct (H v Hv Mv) as [M' <-]. apply B'; auto.
    + destruct (agreesb (leaves s) mask x y); auto. lra.
Qed.
Theorem consistent_positive (HP : parith P val) (m : mgr P) i s t mask x f : psdd_at m i s t -> tops_one t -> positive t ->
  (forall j, reach (m_heap m) i j -> f j = false) ->
  exists e b f', Evaluate (m_heap m) mask x i = Ok e /\ IsConsistent (m_heap m) mask x i f = Ok (b, f') /\ (b = true <-> 0 < val e) /\ (b = false <-> val e = 0).
Proof.
  intros A T PT Hf. destruct (evaluate_full val HP m i s t mask x A) as (e & E & _ & V & _).
  destruct (consistent_full val m i s t mask x f A Hf) as (b & f' & EC & _ & HB). exists e, b, f'. do 2 (split; auto).
  destruct (psdd_at_facts val _ _ _ _ A) as (_ & _ & C & _).
  pose proof (positive_nonneg t PT) as N. pose proof (fun y => weight_nonneg t y N) as W. specialize (V T (fun _ => true)).
  assert (b = true <-> 0 < val e) as G.
  { rewrite HB, V, sum_over_pos; [|apply masked_depends; auto|intros y; destruct (agreesb _ _ _ _); auto; lra]. split.
    - intros (y & Ay & By). exists y. rewrite (proj2 (agreesb_spec _ _ _ _) Ay). apply weight_pos_base; auto.
    - intros (y & Hy). destruct (agreesb (leaves s) mask x y) eqn:B; [|lra]. exists y. split; [apply agreesb_spec; auto|]. apply weight_pos_base in Hy; auto. }
  split; auto. assert (0 <= val e) as GE by (rewrite V; apply sum_over_nonneg; intros y; destruct (agreesb _ _ _ _); auto; lra).
  destruct b; split; intros H; try discriminate; auto.
  - destruct G as [G _]. specialize (G eq_refl). lra.
  - destruct (Rle_lt_or_eq_dec _ _ GE) as [X|X]; auto. apply G in X. discriminate.
Qed.
Theorem mpe_agrees (HP : pexact P val) (m : mgr P) i s t L ud fuel : psdd_at m i s t -> nonneg t -> deterministic t -> normalized t ->
  SerializePsddNodes (m_heap m) [i] = Ok L -> (vsize s <= fuel)%nat ->
  exists x v ud' n, GetMPESolution fuel (m_heap m) L ud = Ok (x, v, ud') /\ ModelCount (m_heap m) L = Ok n /\
    (exists e, Evaluate (m_heap m) (fun _ => true) x i = Ok e /\ val e = val v) /\
    (forall mask y e, (forall w, In w (leaves s) -> mask w = true) -> Evaluate (m_heap m) mask y i = Ok e -> val e <= val v) /\
    (forall mask e, Evaluate (m_heap m) mask x i = Ok e -> val v <= val e) /\
    1 <= IZR (Z.of_N n) * val v.
Proof.
  intros A N D NO ES F. destruct (mpe_full val HP m i s t L ud fuel A N D ES F) as (x & v & ud' & E & W & B & O & _).
  pose proof (count_full val m i s t L (fun _ => true) A D ES) as EC.
  destruct (psdd_at_facts val _ _ _ _ A) as (_ & ND & C & _). pose proof (normalized_tops_one t NO) as T. pose proof (fun y => weight_nonneg t y N) as WN.
  exists x, v, ud'. eexists. split; [exact E|]. split; [exact EC|]. split; [|split; [|split]].
  - destruct (evaluate_full val HP m i s t (fun _ => true) x A) as (e & Ee & G & _). exists e. split; auto. rewrite G; auto.
  - intros mask y e Hm Ee. destruct (evaluate_full val HP m i s t mask y A) as (e0 & Ee0 & G & _). rewrite Ee in Ee0. injection Ee0 as <-. rewrite (G Hm). auto.
  - intros mask e Ee. destruct (evaluate_full val HP m i s t mask x A) as (e0 & Ee0 & _ & G & _). rewrite Ee in Ee0. injection Ee0 as <-.
    rewrite (G T (fun _ => true)), <- W.
    eapply Rle_trans; [|apply (sum_over_term _ (fun y => if agreesb (leaves s) mask x y then weight t y else 0) x)].
    + cbv beta. assert (agreesb (leaves s) mask x x = true) as -> by (apply agreesb_spec; intros w _ _; reflexivity). lra.
    + apply masked_depends; auto.
    + intros y. destruct (agreesb _ _ _ _); auto. lra.
  - rewrite <- (normalized_total s t (fun _ => true) ND C NO), count_sum, Rmult_comm, <- sum_over_scal. apply sum_over_le. intros y.
    destruct (base t y) eqn:By; [rewrite Rmult_1_r; auto|]. rewrite (weight_zero_off_base t y By). lra.
Qed.
Theorem sample_agrees (HP : pexact P val) (m : mgr P) i s t fuel us mask : psdd_at m i s t -> nonneg t -> normalized t ->
  (i < fuel)%nat -> (vsize s <= length us)%nat -> (forall u, In u us -> val u < 1) ->
  exists x us' e, DirectSample fuel (m_heap m) i (fun _ => false) us = Ok (x, us') /\ Evaluate (m_heap m) mask x i = Ok e /\ 0 < val e.
Proof.
  intros A N NO F LU U. destruct (sample_full val HP m i s t fuel us A N NO F LU U) as (x & us' & E & _ & W & _).
  destruct (evaluate_full val HP m i s t mask x A) as (e & Ee & _ & G & _). exists x, us', e. do 2 (split; auto).
  destruct (psdd_at_facts val _ _ _ _ A) as (_ & ND & C & _). rewrite (G (normalized_tops_one t NO) (fun _ => true)).
  apply sum_over_pos; [apply masked_depends; auto|intros y; destruct (agreesb _ _ _ _); [apply weight_nonneg; auto|lra]|].
  exists x. assert (agreesb (leaves s) mask x x = true) as -> by (apply agreesb_spec; intros w _ _; reflexivity). auto.
Qed.
Theorem marginals_agree (HP : parith P val) (m : mgr P) i s t L v : psdd_at m i s t -> normalized t -> SerializePsddNodes (m_heap m) [i] = Ok L -> In v (leaves s) ->
  exists mg pf pt, GetMarginals (m_heap m) L = Ok mg /\ mg v = Some (pf, pt) /\ val pf + val pt = 1.
Proof.
  intros A NO ES Hv. destruct (marg_full val HP m i s t L A NO ES) as (mg & E & H & _). destruct (H v Hv) as (pf & pt & Em & T & F & _).
  exists mg, pf, pt. do 2 (split; auto). destruct (psdd_at_facts val _ _ _ _ A) as (_ & ND & C & _).
  rewrite (T (fun _ => true)), (F (fun _ => true)), <- sum_over_plus, <- (normalized_total s t (fun _ => true) ND C NO).
  apply sum_over_ext'. intros y. destruct (y v); lra.
Qed.
(** Bayes: evaluating after multiplying by an indicator of the evidence *)
Theorem bayes (HP : pexact P val) fl (m : mgr P) a b p s ta tb mask y c : tidy val fl m -> subtree (m_vt m) p = Some s ->
  node_at val m a p ta -> node_at val m b p tb -> positive ta -> positive tb -> normalized ta ->
  (forall x, weight tb x = if agreesb (leaves s) mask y x then c else 0) ->
  exists r z m' e, Multiply m a b fl = Ok ((r, z), m') /\ Evaluate (m_heap m) mask y a = Ok e /\ val z = c * val e /\
    (r = None -> val e = 0) /\
    forall i, r = Some i -> forall mask2, exists e2 e12, Evaluate (m_heap m') mask2 y i = Ok e2 /\
      Evaluate (m_heap m) (fun w => mask2 w || mask w) y a = Ok e12 /\ val e2 * val e = val e12.
Proof.
  intros T S Na Nb Pa Pb NO Wb. destruct (conditioning val HP fl m a b p s ta tb (agreesb (leaves s) mask y) c T S Na Nb Pa Pb NO Wb) as (r & z & m' & E & X & Z & M).
  pose proof (tidy_inv val HP fl m T) as I. assert (psdd_at m a s ta) as A.
  { split; [apply I|]. split; [apply Na|]. exists p. split; [apply Na|]. auto. }
  pose proof (normalized_tops_one ta NO) as T1.
  destruct (evaluate_full val HP m a s ta mask y A) as (e & Ee & _ & G & _). specialize (G T1).
  exists r, z, m', e. do 2 (split; auto). split; [rewrite (Z (fun _ => true)), (G (fun _ => true)); auto|]. split.
  - intros ->. rewrite (G (fun _ => true)). transitivity (sum_over (leaves s) (fun _ => 0) (fun _ => true)); [|apply sum_over_zero].
    apply sum_over_ext'. intros x. destruct (agreesb (leaves s) mask y x) eqn:B; auto.
  - intros i -> mask2. destruct (M mask2 y (fun _ => true)) as (e2 & E2 & V2).
    destruct (evaluate_full val HP m a s ta (fun w => mask2 w || mask w) y A) as (e12 & E12 & _ & G12 & _).
    exists e2, e12. do 2 (split; auto). rewrite (G12 T1 (fun _ => true)), (G (fun _ => true)), V2. apply sum_over_ext'. intros x. rewrite agreesb_or. reflexivity.
Qed.
End Agree.
