(** How many nodes a product has at each vtree node (C96). *)
From Verif Require Import Base Param Vtree VtreeProofs Heap Manager HeapProofs SerProofs Pgm SizeProofs.
Local Open Scope nat_scope.

Section SizeAt.
Context {P : pops}.
Notation heap := (heap P). Notation mgr := (mgr P). Notation node := (node P).
Context (Hr : forall a : P, peq a a = true) (Hi : forall a : P, plt a a = false).

(** The pairs in the cache of a multiplication are at the same vtree node *)
Definition same (h0 : heap) (c : @mcache P) : Prop := forall pos i j r, In ((pos, i, j), r) c -> vt_of h0 i = vt_of h0 j.
Section Fixed.
Context (root : vtree) (h0 : heap) (H0 : heap_ok root h0) (fl : N).
Notation mst := (mst root h0).
Lemma update_same (m2 : mgr) c a b r c2 : same h0 c -> vt_of h0 a = vt_of h0 b -> cache_update m2 c a b r = Ok c2 -> same h0 c2.
Proof.
  intros S E U. unfold cache_update in U. bk U as pos U1. injection U as <-. intros pos' i j r' [Q|Q]; [injection Q as <- <- <- <-; auto|eapply S; eauto].
Qed.
Definition rec_same (rec : nat -> nat -> mgr * @mcache P -> res (@mres P * (mgr * @mcache P))) : Prop :=
  forall a b m c r m' c', mst m c -> a < length h0 -> b < length h0 -> same h0 c -> rec a b (m, c) = Ok (r, (m', c')) -> same h0 c'.
Lemma fold_same rec n : rec_ok root h0 rec -> rec_same rec -> n <= length h0 ->
  forall L acc part m c acc' part' m' c', mst m c -> same h0 c ->
  (forall x y, In (x, y) L -> (e_prime x < n /\ e_sub x < n) /\ (e_prime y < length h0 /\ e_sub y < length h0)) ->
  foldM (mul_pair rec) L (acc, part, (m, c)) = Ok (acc', part', (m', c')) -> same h0 c'.
Proof.
  intros HR HS Hn. induction L as [|[x y] L IH]; intros acc part m c acc' part' m' c' S SC IL E; cbn [foldM] in E.
  - injection E as <- <- <- <-. auto.
  - bk E as [[acc1 part1] [m1 c1]] E1. unfold mul_pair in E1. destruct (IL x y (or_introl eq_refl)) as [[X1 X2] [Y1 Y2]].
    assert (Z1 : e_prime x < length h0) by lia. assert (Z2 : e_sub x < length h0) by lia.
    assert (IL' : forall x y, In (x, y) L -> (e_prime x < n /\ e_sub x < n) /\ (e_prime y < length h0 /\ e_sub y < length h0)) by (intros; apply IL; right; auto).
    bk E1 as [pr [m2 c2]] E2. pose proof (HS _ _ _ _ _ _ _ S Z1 Y1 SC E2) as SC2. apply HR in E2 as [(S2 & _) _]; [|auto|lia|lia].
    destruct (fst pr) as [pi|].
    + bk E1 as [sr [m3 c3]] E3. pose proof (HS _ _ _ _ _ _ _ S2 Z2 Y2 SC2 E3) as SC3. apply HR in E3 as [(S3 & _) _]; [|auto|lia|lia].
      destruct (fst sr) as [si|]; injection E1 as <- <- <- <-; eapply IH; [exact S3|exact SC3|exact IL'|exact E|exact S3|exact SC3|exact IL'|exact E].
    + injection E1 as <- <- <- <-. eapply IH; [exact S2|exact SC2|exact IL'|exact E].
Qed.
Lemma multiply_same fuel : rec_same (multiply_with_cache fuel fl).
Proof.
  induction fuel as [|f IH]; intros a b m c r m' c' S La Lb SC E; cbn [multiply_with_cache] in E; [discriminate|].
  bk E as pos E1. destruct (alookup key_eqb (pos, a, b) c) as [x|] eqn:EL; [injection E as <- <- <-; auto|].
  bk E as na Ea. bk E as nb Eb. bk E as u EV.
  destruct (nth_error (m_heap m) a) as [na'|] eqn:Na; [|discriminate]. injection Ea as ->. destruct (nth_error (m_heap m) b) as [nb'|] eqn:Nb; [|discriminate]. injection Eb as ->.
  apply (base_nth root h0 m c a _ S La) in Na. apply (base_nth root h0 m c b _ S Lb) in Nb.
  assert (VE : vt_of h0 a = vt_of h0 b).
  { assert (Va : vt_of h0 a = Some (n_vt na)) by (unfold vt_of; rewrite Na; reflexivity). assert (Vb : vt_of h0 b = Some (n_vt nb)) by (unfold vt_of; rewrite Nb; reflexivity).
    destruct (heap_ok_valid _ _ _ _ H0 Va) as (s & Es). destruct (heap_ok_valid _ _ _ _ H0 Vb) as (s' & Es'). rewrite (ms_vt _ _ _ _ S) in EV. unfold assert in EV.
    destruct (Nat.eqb_spec (vpos root (n_vt na)) (vpos root (n_vt nb))) as [Q|]; [|discriminate]. rewrite Va, Vb. f_equal. eapply vpos_inj; eauto. }
  pose proof (H0 _ _ Na) as Oa. pose proof (H0 _ _ Nb) as Ob. unfold node_ok in Oa, Ob.
  destruct (n_body na) as [la|va ta fa|ea] eqn:Ba; destruct (n_body nb) as [lb|vb tb fb|eb] eqn:Bb; try discriminate.
  - bk E as u1 _. destruct (Z.eqb la lb).
    + bk E as [i m1] E2. bk E as c2 E3. injection E as <- <- <-. eapply update_same; eauto.
    + bk E as c2 E3. injection E as <- <- <-. eapply update_same; eauto.
  - bk E as u1 _. bk E as [i m1] E2. bk E as c2 E3. injection E as <- <- <-. eapply update_same; eauto.
  - bk E as u1 _. bk E as [i m1] E2. bk E as c2 E3. injection E as <- <- <-. eapply update_same; eauto.
  - bk E as u1 _. bk E as [i m1] E2. bk E as nd _. destruct (n_body nd); try discriminate. bk E as u2 _. bk E as u3 _. bk E as c2 E3. injection E as <- <- <-.
    eapply update_same; eauto.
  - bk E as [[acc part] [m1 c1]] E2. destruct Oa as (_ & _ & Fa). destruct Ob as (_ & _ & Fb). rewrite Forall_forall in Fa, Fb.
    assert (SC1 : same h0 c1).
    { eapply (fold_same _ a); [apply (multiply_grown Hr Hi root h0 H0 fl f)|exact IH|lia|exact S|exact SC| |exact E2].
      intros x y I. apply in_prod_iff in I as [I1 I2]. destruct (Fa x I1) as (A1 & A2 & _). destruct (Fb y I2) as (A3 & A4 & _).
      split; split; lia. }
    destruct acc as [|e acc].
    + bk E as c2 E3. injection E as <- <- <-. eapply update_same; eauto.
    + bk E as u1 _. bk E as [i m2] E4. bk E as c2 E3. injection E as <- <- <-. eapply update_same; eauto.
Qed.
End Fixed.

(** Below node [i] there are at most [n] nodes at the vtree node [p], with at most [w] elements (a leaf counts as one) *)
Definition at_most (h : heap) (i : nat) (p : path) (n w : nat) : Prop :=
  forall L, NoDup L -> (forall j, In j L -> reach h i j /\ vt_of h j = Some p) -> length L <= n /\ list_sum (map (width_at h) L) <= w.
Definition here (h : heap) (p : path) (i : nat) : bool := match vt_of h i with Some q => path_eqb q p | None => false end.
Lemma here_true (h : heap) p i : here h p i = true <-> vt_of h i = Some p.
Proof. unfold here. destruct (vt_of h i) as [q|]; split; intros H; try discriminate; [apply path_eqb_true in H; congruence|injection H as ->; apply path_eqb_refl]. Qed.
Lemma at_most_ser (h : heap) i L p : ser_of h i L -> at_most h i p (length (filter (here h p) L)) (list_sum (map (width_at h) (filter (here h p) L))).
Proof.
  intros S L' ND H. assert (IN : incl L' (filter (here h p) L)).
  { intros j I. apply filter_In. destruct (H j I). split; [apply (so_in _ _ _ S); auto|apply here_true; auto]. }
  split; [apply NoDup_incl_length; auto|apply sum_incl; auto].
Qed.
Lemma at_most_le h i p n w n' w' : at_most h i p n w -> n <= n' -> w <= w' -> at_most h i p n' w'.
Proof. intros A H1 H2 L ND H. destruct (A L ND H). lia. Qed.
Lemma results_in_iff (c : @mcache P) k : In k (results c) <-> resin c k.
Proof.
  split; [|apply results_in]. intros I. apply in_flat_map in I as ([key [[k'|] w]] & I1 & I2); simpl in I2; [destruct I2 as [->|[]]|destruct I2]. exists key, w. auto.
Qed.
Lemma nodup_map_filter {A B} (f : A -> B) (g : A -> bool) l : NoDup (map f l) -> NoDup (map f (filter g l)).
Proof.
  induction l as [|e l IH]; [constructor|]. cbn [map filter]. intros ND. inversion ND as [|? ? N1 N2]. subst.
  destruct (g e); cbn [map]; auto. constructor; auto. intros I. apply N1. apply in_map_iff in I as (x & Q & I). apply filter_In in I. apply in_map_iff. exists x. tauto.
Qed.
Theorem multiply_at m a b fl k z m' p na nb wa wb : @shaped P -> Wf m -> a < length (m_heap m) -> b < length (m_heap m) -> Multiply m a b fl = Ok ((Some k, z), m') ->
  at_most (m_heap m) a p na wa -> at_most (m_heap m) b p nb wb -> at_most (m_heap m') k p (na * nb) (wa * wb).
Proof.
  intros SH W LA LB E HA HB L NL HL. unfold Multiply in E. bk E as [r1 [m1 c1]] E1. injection E as -> <-. rename m1 into m1'.
  assert (S0 : mst (m_vt m) (m_heap m) m []).
  { split; [exact W|reflexivity|exists []; rewrite app_nil_r; auto|constructor|intros ? ? ? ? []|intros ? ? ? ? ? []|intros ? ? ? ? ? []]. }
  destruct (multiply_grown Hr Hi (m_vt m) (m_heap m) (wf_heap _ W) fl (1 + a) a b m [] _ _ c1 S0 LA LB E1) as [(S1 & K & EK & A & F) RR].
  pose proof (multiply_same (m_vt m) (m_heap m) (wf_heap _ W) fl (1 + a) a b m [] _ _ c1 S0 LA LB ltac:(intros ? ? ? ? []) E1) as SM.
  rewrite app_nil_r in EK. subst c1. pose proof (ms_nodup _ _ _ _ S1) as ND. cbn [fst] in RR. destruct RR as [_ RK].
  assert (CL : forall x j, reach (m_heap (fst (m1', K))) x j -> resin K x -> resin K j).
  { cbn [fst]. intros x j R. clear - S1 SH R. induction R as [|i nd c j E2 IC R IH]; auto. intros (key & w0 & I). apply IH. destruct key as [[pos i0] j0].
    destruct (ms_made _ _ _ _ S1 _ _ _ _ _ I) as (nd' & E3 & G). assert (nd' = nd) as -> by congruence. apply (G SH); auto. }
  cbn [fst] in *.
  (* the entries at p *)
  set (Kp := filter (fun e => here (m_heap m) p (fst (pair_of e))) K).
  assert (NDp : NoDup (map pair_of Kp)).
  { apply (nodup_map_filter pair_of _ _ ND). }
  destruct (serialize_root _ _ _ (wf_heap _ W) LA) as (La & Sa). destruct (serialize_root _ _ _ (wf_heap _ W) LB) as (Lb & Sb).
  set (Ap := filter (here (m_heap m) p) La). set (Bp := filter (here (m_heap m) p) Lb).
  assert (IN : incl (map pair_of Kp) (list_prod Ap Bp)).
  { intros [i j] I. apply in_map_iff in I as (e & Q & I). apply filter_In in I as [I Hp]. rewrite Forall_forall in F. destruct (F e I) as [R1 R2]. rewrite Q in R1, R2, Hp. cbn [fst snd] in *.
    destruct e as [[[pos i'] j'] r]. unfold pair_of in Q. cbn [fst snd] in Q. injection Q as -> ->. apply here_true in Hp. pose proof (SM _ _ _ _ I) as V. rewrite Hp in V.
    apply in_prod_iff. split; apply filter_In; (split; [|apply here_true; auto]); [apply (so_in _ _ _ Sa)|apply (so_in _ _ _ Sb)]; auto. }
  assert (FA : length Ap <= na /\ list_sum (map (width_at (m_heap m)) Ap) <= wa).
  { apply HA; [apply NoDup_filter, (so_nodup _ _ _ Sa)|]. intros j I. apply filter_In in I as [I1 I2]. apply here_true in I2. split; auto. apply (so_in _ _ _ Sa); auto. }
  assert (FB : length Bp <= nb /\ list_sum (map (width_at (m_heap m)) Bp) <= wb).
  { apply HB; [apply NoDup_filter, (so_nodup _ _ _ Sb)|]. intros j I. apply filter_In in I as [I1 I2]. apply here_true in I2. split; auto. apply (so_in _ _ _ Sb); auto. }
  assert (B1 : length Kp <= na * nb).
  { pose proof (NoDup_incl_length NDp IN) as LE. rewrite map_length, prod_length in LE. pose proof (Nat.mul_le_mono _ _ _ _ (proj1 FA) (proj1 FB)). lia. }
  assert (B2 : csum (m_heap m) Kp <= wa * wb).
  { unfold csum. pose proof (sum_incl (pw (m_heap m)) _ NDp _ IN) as LE. rewrite map_map, sum_prod in LE. pose proof (Nat.mul_le_mono _ _ _ _ (proj2 FA) (proj2 FB)). lia. }
  assert (IL : incl L (results Kp)).
  { intros j I. destruct (HL j I) as [R V]. assert (resin K j) as (key & w & J) by (apply (CL k); auto). destruct key as [[pos i0] j0]. apply results_in_iff. exists (pos, i0, j0), w.
    apply filter_In. split; auto. unfold pair_of. cbn [fst snd]. apply here_true. rewrite <- (ms_res _ _ _ _ S1 _ _ _ _ _ J). auto. }
  split.
  - pose proof (NoDup_incl_length NL IL). pose proof (results_len Kp). lia.
  - pose proof (sum_incl (width_at (m_heap m1')) _ NL _ IL) as Q1.
    assert (Q3 : list_sum (map (width_at (m_heap m1')) (results Kp)) <= csum (m_heap m) Kp).
    { apply (results_sum (m_heap m1') (m_heap m) width Kp). intros pos i j k0 w0 I. apply filter_In in I as [I _].
      destruct (ms_made _ _ _ _ S1 _ _ _ _ _ I) as (nd' & E3 & G). exists nd'. split; auto. apply (G SH). }
    lia.
Qed.
End SizeAt.
