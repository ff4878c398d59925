(** What the bounds of the bitsets change. *)
From Coq Require Import Reals Lra.
From Verif Require Import Base Param Vtree VtreeProofs Spec SpecProofs Heap Manager HeapProofs SerProofs RepProofs LoadProofs
  MulProofs TreeProofs Query QueryProofs MpeProofs SampleProofs Data BitQuery.

(** The numbers a bitset has room for *)
Definition fits (v : N) : bool := N.ltb v max_var.
(** The variables of the literal nodes of a PSDD *)
Fixpoint lit_vars (t : ptree) : list N :=
  match t with
  | TLit l => [Z.abs_N l]
  | TTop _ _ _ => []
  | TDec es => flat_map (fun e => lit_vars (fst (fst e)) ++ lit_vars (snd (fst e))) es
  end.

(** ** Loops that stop at the first element that does not fit *)
Lemma foldM_guard {S A} (f g : S -> A -> res S) (ok : A -> bool) : forall l,
  (forall s a, In a l -> g s a = if ok a then f s a else UB) -> (forall s a, In a l -> exists s', f s a = Ok s') ->
  forall s, foldM g l s = if forallb ok l then foldM f l s else UB.
Proof.
  induction l as [|a l IH]; intros HG HF s; [reflexivity|]. cbn [foldM forallb]. rewrite HG by (left; auto). destruct (ok a); [|reflexivity].
  destruct (HF s a ltac:(left; auto)) as (s' & ->). cbn [bind andb]. apply IH; intros; [apply HG|apply HF]; right; auto.
Qed.

Section Bits.
Context {P : pops} (val : P -> R).
Notation heap := (heap P). Notation mgr := (mgr P). Notation node := (node P).
Notation Rep := (Rep val).

Definition node_fits (h : heap) (lits : bool) (i : nat) : bool :=
  match nth_error h i with
  | Some nd => match n_body nd with BLit l => fits (lit_var l) | BTop v _ _ => if lits then true else fits v | BDec _ => true end
  | None => true
  end.
Lemma beval_guard (h : heap) mask x c i : i < length h -> beval_step h mask x c i = if node_fits h false i then eval_step h mask x c i else UB.
Proof.
  intros H. unfold beval_step, eval_step, node_of, node_fits. destruct (nth_error h i) as [nd|] eqn:E; [|apply nth_error_None in E; lia]. cbn [get bind].
  unfold beval_node, eval_node, bit_test, fits. destruct (n_body nd) as [l|v pt pf|es]; [| |reflexivity].
  - destruct (N.ltb (lit_var l) max_var); cbn [bind]; auto. destruct (mask (lit_var l)); reflexivity.
  - destruct (N.ltb v max_var); cbn [bind]; auto. destruct (mask v); cbn [bind]; auto; destruct (x v); reflexivity.
Qed.
Lemma bflag_guard (h : heap) e f i : i < length h -> bflag_step h e f i = if node_fits h true i then flag_step h e f i else UB.
Proof.
  intros H. unfold bflag_step, flag_step, node_of, node_fits. destruct (nth_error h i) as [nd|] eqn:E; [|apply nth_error_None in E; lia]. cbn [get bind].
  unfold bflag_node, flag_node, bit_test, fits. destruct (n_body nd) as [l|v pt pf|es]; [|reflexivity|reflexivity].
  destruct (N.ltb (lit_var l) max_var); reflexivity.
Qed.
Lemma bcons_guard (h : heap) mask e f i : i < length h -> bcons_step h mask e f i = if node_fits h true i then cons_step h mask e f i else UB.
Proof.
  intros H. unfold bcons_step, cons_step, node_of, node_fits. destruct (nth_error h i) as [nd|] eqn:E; [|apply nth_error_None in E; lia]. cbn [get bind].
  unfold bcons_node, cons_node, bit_test, fits. destruct (n_body nd) as [l|v pt pf|es]; [|reflexivity|reflexivity].
  destruct (N.ltb (lit_var l) max_var); cbn [bind]; auto. destruct (mask (lit_var l)); reflexivity.
Qed.
Lemma node_some (h : heap) i : i < length h -> exists nd, nth_error h i = Some nd.
Proof. intros H. destruct (nth_error h i) eqn:E; eauto. apply nth_error_None in E. lia. Qed.

(** ** Which variables the nodes of a PSDD have *)
Lemma conforms_lits s : forall t v, conforms s t -> In v (lit_vars t) -> In v (leaves s).
Proof.
  intros t. revert s. induction t as [l|w a b|es IH] using ptree_ind2; intros s v C I; cbn [lit_vars] in I.
  - destruct s; [|destruct C]. destruct I as [<-|[]]. cbn in C. subst. left; auto.
  - destruct I.
  - destruct s as [|a b]; [destruct C|]. apply conforms_dec in C as [_ F]. apply in_flat_map in I as (e & He & I). rewrite Forall_forall in IH, F.
    destruct (IH e He) as [I1 I2], (F e He) as [F1 F2]. cbn [leaves]. apply in_or_app. apply in_app_or in I as [I|I]; [left; eapply I1|right; eapply I2]; eauto.
Qed.
Definition node_var (h : heap) (i : nat) (v : N) : Prop := exists nd, nth_error h i = Some nd /\ ((exists l, n_body nd = BLit l /\ lit_var l = v) \/ (exists pt pf, n_body nd = BTop v pt pf)).
Definition node_lit (h : heap) (i : nat) (v : N) : Prop := exists nd l, nth_error h i = Some nd /\ n_body nd = BLit l /\ lit_var l = v.
Lemma reach_child (h : heap) i nd es e c j : nth_error h i = Some nd -> n_body nd = BDec es -> In e es -> (c = e_prime e \/ c = e_sub e) -> reach h c j -> reach h i j.
Proof. intros E Eb He Hc R. eapply reach_step; eauto. apply in_children. eauto 10. Qed.
(** every leaf below a node is the variable of a node that is reached *)
Lemma leaf_reached (h : heap) s : forall t i v, Rep h i t -> conforms s t -> In v (leaves s) -> exists j, reach h i j /\ node_var h j v.
Proof.
  intros t. revert s. induction t as [l|w a b|es IH] using ptree_ind2; intros s i v R C I.
  - apply Rep_lit_inv in R as (nd & E & Eb). destruct s; [|destruct C]. cbn in C, I. destruct I as [<-|[]]. exists i. split; [constructor|]. exists nd. split; eauto.
  - apply Rep_top_inv in R as (nd & pt & pf & E & Eb & _). destruct s; [|destruct C]. cbn in C, I. destruct I as [<-|[]]. subst w. exists i. split; [constructor|]. exists nd. split; eauto.
  - apply Rep_dec_inv in R as (nd & ees & E & Eb & F). destruct s as [|a b]; [destruct C|]. apply conforms_dec in C as [NE FC].
    destruct es as [|te es]; [congruence|]. inversion F as [|e ? ees' ? (R1 & R2 & _) F']; subst. inversion IH as [|? ? [I1 I2] _]; subst. inversion FC as [|? ? [C1 C2] _]; subst.
    cbn [leaves] in I. apply in_app_or in I as [I|I].
    + destruct (I1 _ _ _ R1 C1 I) as (j & Rj & V). exists j. split; auto. eapply (reach_child h i nd _ e (e_prime e)); eauto. left; auto.
    + destruct (I2 _ _ _ R2 C2 I) as (j & Rj & V). exists j. split; auto. eapply (reach_child h i nd _ e (e_sub e)); eauto. left; auto.
Qed.
Lemma lit_reached (h : heap) : forall t i v, Rep h i t -> In v (lit_vars t) -> exists j, reach h i j /\ node_lit h j v.
Proof.
  intros t. induction t as [l|w a b|es IH] using ptree_ind2; intros i v R I; cbn [lit_vars] in I.
  - apply Rep_lit_inv in R as (nd & E & Eb). destruct I as [<-|[]]. exists i. split; [constructor|]. exists nd, l. auto.
  - destruct I.
  - apply Rep_dec_inv in R as (nd & ees & E & Eb & F). apply in_flat_map in I as (te & He & I). rewrite Forall_forall in IH. destruct (IH te He) as [I1 I2].
    assert (exists e, In e ees /\ ElemRep val h e te) as (e & Hee & R1 & R2 & _).
    { clear -F He. induction F; [destruct He|]. destruct He as [<-|He]; [exists x; split; [left|]; auto|]. destruct (IHF He) as (e & ? & ?). exists e. split; [right|]; auto. }
    apply in_app_or in I as [I|I].
    + destruct (I1 _ _ R1 I) as (j & Rj & V). exists j. split; auto. eapply (reach_child h i nd _ e (e_prime e)); eauto.
    + destruct (I2 _ _ R2 I) as (j & Rj & V). exists j. split; auto. eapply (reach_child h i nd _ e (e_sub e)); eauto.
Qed.
Lemma reach_vars (h : heap) : forall i j, reach h i j -> forall s t v, Rep h i t -> conforms s t ->
  (node_var h j v -> In v (leaves s)) /\ (node_lit h j v -> In v (lit_vars t)).
Proof.
  induction 1 as [i|i nd c j E Hc R IH]; intros s t v Rt C.
  - split.
    + intros (nd & E & [(l & Eb & <-)|(pt & pf & Eb)]); inversion Rt as [? nd' l' E' Eb'|? nd' v' pt' pf' E' Eb'|? nd' es tes E' Eb' F]; subst; rewrite E in E'; injection E' as <-; rewrite Eb in Eb'; try discriminate; injection Eb'; intros; subst;
        destruct s; cbn in C |- *; try contradiction; auto.
    + intros (nd & l & E & Eb & <-). inversion Rt as [? nd' l' E' Eb'|? nd' v' pt' pf' E' Eb'|? nd' es tes E' Eb' F]; subst; rewrite E in E'; injection E' as <-; rewrite Eb in Eb'; try discriminate. injection Eb'; intros; subst. left; auto.
  - apply in_children in Hc as (es & e & Eb & He & Hc). inversion Rt as [? nd' l' E' Eb'|? nd' v' pt' pf' E' Eb'|? nd' es' tes E' Eb' F]; subst; rewrite E in E'; injection E' as <-; rewrite Eb in Eb'; try discriminate. injection Eb' as <-.
    destruct s as [|a b]; [destruct C|]. apply conforms_dec in C as [_ FC].
    assert (exists te, In te tes /\ Rep h (e_prime e) (tp te) /\ Rep h (e_sub e) (ts te)) as (te & Ht & R1 & R2).
    { clear -F He. induction F as [|x y l l' (A & B & _) F IHF]; [destruct He|]. destruct He as [<-|He]; [exists y; split; [left|]; auto|]. destruct (IHF He) as (te & ? & ?). exists te. split; [right|]; auto. }
    rewrite Forall_forall in FC. destruct (FC te Ht) as [C1 C2]. cbn [leaves lit_vars].
    destruct Hc as [-> | ->].
    + destruct (IH a (tp te) v R1 C1) as [A B]. split; intros Hv; [apply in_or_app; left; auto|]. apply in_flat_map. exists te. split; auto. apply in_or_app; left; apply B; auto.
    + destruct (IH b (ts te) v R2 C2) as [A B]. split; intros Hv; [apply in_or_app; right; auto|]. apply in_flat_map. exists te. split; auto. apply in_or_app; right; apply B; auto.
Qed.

Lemma forallb_iff {A B} (p : A -> bool) (q : B -> bool) l m : (Forall (fun a => p a = true) l <-> Forall (fun b => q b = true) m) -> forallb p l = forallb q m.
Proof.
  intros H. apply Bool.eq_iff_eq_true. rewrite !forallb_forall. rewrite !Forall_forall in H. exact H.
Qed.
Lemma nodes_fit (m : mgr) i s t L : psdd_at val m i s t -> ser_of (m_heap m) i L ->
  forallb (node_fits (m_heap m) false) (rev L) = forallb fits (leaves s) /\ forallb (node_fits (m_heap m) true) (rev L) = forallb fits (lit_vars t).
Proof.
  intros A SO. destruct (psdd_at_facts _ _ _ _ _ A) as (HO & ND & C & _). destruct A as (W & R & _). set (h := m_heap m) in *. split; apply forallb_iff; rewrite !Forall_forall; split.
  - intros H v Hv. destruct (leaf_reached h s t i v R C Hv) as (j & Rj & nd & E & V). specialize (H j ltac:(apply in_rev; rewrite rev_involutive; apply (so_in _ _ _ SO); auto)).
    unfold node_fits in H. rewrite E in H. destruct V as [(l & Eb & <-)|(pt & pf & Eb)]; rewrite Eb in H; auto.
  - intros H j Hj. apply in_rev in Hj. apply (so_in _ _ _ SO) in Hj. unfold node_fits. destruct (nth_error h j) as [nd|] eqn:E; auto. destruct (n_body nd) as [l|v pt pf|es] eqn:Eb; auto.
    + apply H. eapply (reach_vars h i j Hj s t _ R C). exists nd. split; eauto.
    + apply H. eapply (reach_vars h i j Hj s t _ R C). exists nd. split; eauto.
  - intros H v Hv. destruct (lit_reached h t i v R Hv) as (j & Rj & nd & l & E & Eb & <-). specialize (H j ltac:(apply in_rev; rewrite rev_involutive; apply (so_in _ _ _ SO); auto)).
    unfold node_fits in H. rewrite E, Eb in H. auto.
  - intros H j Hj. apply in_rev in Hj. apply (so_in _ _ _ SO) in Hj. unfold node_fits. destruct (nth_error h j) as [nd|] eqn:E; auto. destruct (n_body nd) as [l|v pt pf|es] eqn:Eb; auto.
    apply H. eapply (reach_vars h i j Hj s t _ R C). exists nd, l. split; eauto.
Qed.

(** ** The queries that read bits *)
Lemma at_ser (m : mgr) i s t : psdd_at val m i s t -> exists L, ser_of (m_heap m) i L /\ forall j, In j L -> j < length (m_heap m).
Proof.
  intros A. destruct (psdd_at_facts _ _ _ _ _ A) as (HO & _ & _ & L & SO). exists L. split; auto. intros j. eapply ser_lt; eauto.
Qed.
Theorem evaluate_bits (m : mgr) i s t mask x : psdd_at val m i s t ->
  BEvaluate (m_heap m) mask x i = if forallb fits (leaves s) then Evaluate (m_heap m) mask x i else UB.
Proof.
  intros A. destruct (at_ser _ _ _ _ A) as (L & SO & HL). unfold BEvaluate, Evaluate. rewrite (so_eq _ _ _ SO). cbn [bind]. unfold BEvaluateNodes, EvaluateNodes.
  rewrite (foldM_guard (eval_step (m_heap m) mask x) _ (node_fits (m_heap m) false)).
  - rewrite (proj1 (nodes_fit m i s t L A SO)). destruct (forallb fits (leaves s)); reflexivity.
  - intros c j Hj. apply beval_guard, HL, in_rev, Hj.
  - intros c j Hj. destruct (node_some (m_heap m) j) as (nd & E); [apply HL, in_rev, Hj|]. unfold eval_step, node_of. rewrite E. cbn [get bind]. eauto.
Qed.
Theorem flags_bits (m : mgr) i s t e f L : psdd_at val m i s t -> SerializePsddNodes (m_heap m) [i] = Ok L ->
  BSetActivationFlag (m_heap m) e L f = if forallb fits (lit_vars t) then SetActivationFlag (m_heap m) e L f else UB.
Proof.
  intros A EL. destruct (at_ser _ _ _ _ A) as (L' & SO & HL). pose proof (so_eq _ _ _ SO) as Q. rewrite EL in Q. injection Q as <-.
  unfold BSetActivationFlag, SetActivationFlag. rewrite (foldM_guard (flag_step (m_heap m) e) _ (node_fits (m_heap m) true)).
  - rewrite (proj2 (nodes_fit m i s t L A SO)). reflexivity.
  - intros c j Hj. apply bflag_guard, HL, in_rev, Hj.
  - intros c j Hj. destruct (node_some (m_heap m) j) as (nd & E); [apply HL, in_rev, Hj|]. unfold flag_step, node_of. rewrite E. cbn [get bind]. eauto.
Qed.
Theorem consistent_bits (m : mgr) i s t mask e f : psdd_at val m i s t ->
  BIsConsistent (m_heap m) mask e i f = if forallb fits (lit_vars t) then IsConsistent (m_heap m) mask e i f else UB.
Proof.
  intros A. destruct (at_ser _ _ _ _ A) as (L & SO & HL). unfold BIsConsistent, IsConsistent. rewrite (so_eq _ _ _ SO). cbn [bind]. unfold BIsConsistentNodes, IsConsistentNodes.
  rewrite (foldM_guard (cons_step (m_heap m) mask e) _ (node_fits (m_heap m) true)).
  - rewrite (proj2 (nodes_fit m i s t L A SO)). destruct (forallb fits (lit_vars t)); reflexivity.
  - intros c j Hj. apply bcons_guard, HL, in_rev, Hj.
  - intros c j Hj. destruct (node_some (m_heap m) j) as (nd & E); [apply HL, in_rev, Hj|]. unfold cons_step, node_of. rewrite E. cbn [get bind]. eauto.
Qed.
Lemma observe_spec x : forall k i ev, (i + N.of_nat k <= max_var)%N -> exists ev', observe x i k ev = Ok ev' /\
  forall v, ev' v = if N.leb i v && N.ltb v (i + N.of_nat k) then Some (x v) else ev v.
Proof.
  induction k as [|k IH]; intros i ev B.
  - exists ev. split; [reflexivity|]. intros v. destruct (N.leb_spec i v); auto. cbn [andb]. rewrite (proj2 (N.ltb_ge v _)) by lia. reflexivity.
  - cbn [observe]. unfold bit_test. rewrite (proj2 (N.ltb_lt i max_var)) by lia. cbn [bind]. destruct (IH (i + 1)%N (vset ev i (Some (x i)))) as (ev' & E & Q); [lia|].
    exists ev'. split; auto. intros v. rewrite Q. unfold vset. destruct (N.eqb_spec v i) as [->|N1].
    + rewrite (proj2 (N.leb_gt (i + 1) i)) by lia. rewrite N.leb_refl. cbn [andb]. rewrite (proj2 (N.ltb_lt i _)) by lia. reflexivity.
    + replace (i + N.of_nat (S k))%N with (i + 1 + N.of_nat k)%N by lia. destruct (N.leb_spec i v), (N.leb_spec (i + 1) v); auto; lia.
Qed.
Lemma observe_beyond x : forall k i ev, (i <= max_var)%N -> (max_var < i + N.of_nat k)%N -> observe x i k ev = UB.
Proof.
  induction k as [|k IH]; intros i ev B1 B2; [lia|]. cbn [observe]. unfold bit_test. destruct (N.ltb_spec i max_var); [|reflexivity]. cbn [bind]. apply IH; lia.
Qed.
Lemma method_ext (h : heap) ev ev' : (forall v, ev v = ev' v) -> forall fuel i, node_consistent fuel h ev i = node_consistent fuel h ev' i.
Proof.
  intros X. induction fuel as [|f IH]; intros i; [reflexivity|]. cbn [node_consistent]. destruct (node_of h i) as [nd| | | ]; cbn [bind]; auto. destruct (n_body nd) as [l| |es]; [rewrite X; reflexivity|reflexivity|].
  induction es as [|e es IHe]; [reflexivity|]. rewrite IH. destruct (node_consistent f h ev' (e_prime e)) as [a| | | ]; cbn [bind]; auto. destruct a; auto. rewrite IH. destruct (node_consistent f h ev' (e_sub e)) as [b| | | ]; cbn [bind]; auto. destruct b; auto.
Qed.
Theorem method_bits (h : heap) fuel x n i : BNodeIsConsistent fuel h x n i = if fits n then node_consistent fuel h (full_evidence x n) i else UB.
Proof.
  unfold BNodeIsConsistent, fits. destruct (N.ltb_spec n max_var) as [H|H].
  - destruct (observe_spec x (N.to_nat n) 1 (fun _ => None)) as (ev & E & S); [lia|]. rewrite E. cbn [bind]. apply method_ext. intros v. rewrite S. unfold full_evidence.
    replace (N.ltb v (1 + N.of_nat (N.to_nat n))) with (N.leb v n); [reflexivity|]. destruct (N.leb_spec v n), (N.ltb_spec v (1 + N.of_nat (N.to_nat n))); auto; lia.
  - rewrite observe_beyond; [reflexivity|unfold max_var; lia|lia].
Qed.

(** ** The queries that set bits *)
Definition inside (x : N -> bool) : Prop := forall v, x v = true -> fits v = true.
Definition outside (x : N -> bool) : Prop := exists v, x v = true /\ fits v = false.
Lemma bit_set_fits x v : fits v = true -> bit_set x v = Ok (vset x v true).
Proof. unfold fits, bit_set. intros ->. reflexivity. Qed.
Lemma bit_set_not x v : fits v = false -> bit_set x v = Abort.
Proof. unfold fits, bit_set. intros ->. reflexivity. Qed.
Lemma vset_mono (x : N -> bool) v w : x w = true -> vset x v true w = true.
Proof. unfold vset. destruct (N.eqb w v); auto. Qed.
Lemma vset_inside x v : inside x -> fits v = true -> inside (vset x v true).
Proof. intros H F w. unfold vset. destruct (N.eqb_spec w v) as [->|]; auto. Qed.
Lemma mpe_mono (h : heap) c : forall fuel q x y, mpe_queue fuel h c q x = Ok y -> forall v, x v = true -> y v = true.
Proof.
  induction fuel as [|f IH]; intros q x y E v Hv; destruct q as [|i q]; cbn [mpe_queue] in E; try discriminate; try (injection E as <-; auto; fail).
  destruct (node_of h i) as [nd| | | ]; cbn [bind] in E; try discriminate. destruct (n_body nd) as [l|w pt pf|es].
  - eapply IH; eauto. destruct (lit_sign l); auto. apply vset_mono; auto.
  - destruct (get (c i)) as [r| | | ]; cbn [bind] in E; try discriminate. eapply IH; eauto. destruct (Nat.eqb (snd r) 0); auto. apply vset_mono; auto.
  - destruct (get (c i)) as [r| | | ]; cbn [bind] in E; try discriminate. destruct (get (nth_error es (snd r))) as [e| | | ]; cbn [bind] in E; try discriminate. eapply IH; eauto.
Qed.
Lemma mpe_queue_bits (h : heap) c : forall fuel q x y, mpe_queue fuel h c q x = Ok y -> inside x ->
  (inside y -> bmpe_queue fuel h c q x = Ok y) /\ (outside y -> bmpe_queue fuel h c q x = Abort).
Proof.
  induction fuel as [|f IH]; intros q x y E HI; destruct q as [|i q]; cbn [mpe_queue bmpe_queue] in *; try discriminate;
    try (injection E as <-; split; [reflexivity|intros (v & H1 & H2); rewrite (HI v H1) in H2; discriminate]).
  destruct (node_of h i) as [nd| | | ]; cbn [bind] in *; try discriminate. destruct (n_body nd) as [l|w pt pf|es].
  - destruct (lit_sign l); [|apply IH; auto]. destruct (fits (lit_var l)) eqn:F.
    + rewrite bit_set_fits by auto. cbn [bind]. apply IH; auto. apply vset_inside; auto.
    + rewrite bit_set_not by auto. split; auto. intros H. rewrite (H (lit_var l)) in F; [discriminate|]. eapply mpe_mono; eauto. apply vset_same.
  - destruct (get (c i)) as [r| | | ]; cbn [bind] in *; try discriminate. destruct (Nat.eqb (snd r) 0); [apply IH; auto|]. destruct (fits w) eqn:F.
    + rewrite bit_set_fits by auto. cbn [bind]. apply IH; auto. apply vset_inside; auto.
    + rewrite bit_set_not by auto. split; auto. intros H. rewrite (H w) in F; [discriminate|]. eapply mpe_mono; eauto. apply vset_same.
  - destruct (get (c i)) as [r| | | ]; cbn [bind] in *; try discriminate. destruct (get (nth_error es (snd r))) as [e| | | ]; cbn [bind] in *; try discriminate. apply IH; auto.
Qed.
Theorem mpe_bits (h : heap) fuel L ud x v ud' : GetMPESolution fuel h L ud = Ok (x, v, ud') ->
  (inside x -> BGetMPESolution fuel h L ud = Ok (x, v, ud')) /\ (outside x -> BGetMPESolution fuel h L ud = Abort).
Proof.
  unfold GetMPESolution, BGetMPESolution. destruct (foldM (mpe_step h) (rev L) ud) as [c| | | ]; cbn [bind]; try discriminate.
  destruct (front L) as [r| | | ]; cbn [bind]; try discriminate. destruct (get (c r)) as [p| | | ]; cbn [bind]; try discriminate.
  destruct (mpe_queue fuel h c [r] (fun _ => false)) as [y| | | ] eqn:E; cbn [bind]; try discriminate. intros [= <- <- <-].
  destruct (mpe_queue_bits h c fuel _ _ _ E) as [A B]; [intros w Hw; discriminate|]. split; intros H; [rewrite A|rewrite B]; auto.
Qed.
Lemma sample_mono (h : heap) : forall fuel i x s y s', DirectSample fuel h i x s = Ok (y, s') -> forall v, x v = true -> y v = true.
Proof.
  induction fuel as [|f IH]; intros i x s y s' E v Hv; cbn [DirectSample] in E; [discriminate|]. destruct (node_of h i) as [nd| | | ]; cbn [bind] in E; try discriminate.
  destruct (n_body nd) as [l|w pt pf|es].
  - injection E as <- _. destruct (Z.ltb 0 l); auto. apply vset_mono; auto.
  - destruct (draw s) as [us| | | ]; cbn [bind] in E; try discriminate. injection E as <- _. destruct (plt (fst us) pt); auto. apply vset_mono; auto.
  - destruct (draw s) as [us| | | ]; cbn [bind] in E; try discriminate. destruct (pick (fst us) pzero es) as [e| | | ]; cbn [bind] in E; try discriminate.
    destruct (DirectSample f h (e_prime e) x (snd us)) as [[x1 s1]| | | ] eqn:E1; cbn [bind] in E; try discriminate. eapply IH; eauto.
Qed.
Lemma sample_cases (h : heap) : forall fuel i x s y s', DirectSample fuel h i x s = Ok (y, s') -> inside x ->
  (BDirectSample fuel h i x s = Ok (y, s') /\ inside y) \/ (BDirectSample fuel h i x s = Abort /\ outside y).
Proof.
  induction fuel as [|f IH]; intros i x s y s' E HI; cbn [DirectSample BDirectSample] in *; [discriminate|]. destruct (node_of h i) as [nd| | | ]; cbn [bind] in *; try discriminate.
  destruct (n_body nd) as [l|w pt pf|es].
  - injection E as <- <-. destruct (Z.ltb 0 l); cbn [bind]; [|left; auto]. destruct (fits (lit_var l)) eqn:F.
    + rewrite bit_set_fits by auto. left. split; auto. apply vset_inside; auto.
    + rewrite bit_set_not by auto. right. split; auto. exists (lit_var l). split; auto. apply vset_same.
  - destruct (draw s) as [us| | | ]; cbn [bind] in *; try discriminate. injection E as <- <-. destruct (plt (fst us) pt); cbn [bind]; [|left; auto]. destruct (fits w) eqn:F.
    + rewrite bit_set_fits by auto. left. split; auto. apply vset_inside; auto.
    + rewrite bit_set_not by auto. right. split; auto. exists w. split; auto. apply vset_same.
  - destruct (draw s) as [us| | | ]; cbn [bind] in *; try discriminate. destruct (pick (fst us) pzero es) as [e| | | ]; cbn [bind] in *; try discriminate.
    destruct (DirectSample f h (e_prime e) x (snd us)) as [[x1 s1]| | | ] eqn:E1; cbn [bind fst snd] in *; try discriminate.
    destruct (IH _ _ _ _ _ E1 HI) as [[-> I1]|[-> (v & V1 & V2)]]; cbn [bind fst snd]; [eapply IH; eauto|].
    right. split; auto. exists v. split; auto. eapply sample_mono; eauto.
Qed.
Lemma sample_bits (h : heap) fuel i x s y s' : DirectSample fuel h i x s = Ok (y, s') -> inside x ->
  (inside y -> BDirectSample fuel h i x s = Ok (y, s')) /\ (outside y -> BDirectSample fuel h i x s = Abort).
Proof.
  intros E HI. destruct (sample_cases h fuel i x s y s' E HI) as [[A I]|[A O]]; split; intros H; auto.
  - destruct H as (v & V1 & V2). rewrite (I v V1) in V2. discriminate.
  - destruct O as (v & V1 & V2). rewrite (H v V1) in V2. discriminate.
Qed.
End Bits.
