(** The comparator of the unique table is a strict weak order (C09), and histories of manager operations (C10). *)
From Coq Require Import Reals Lra Sorted.
From Verif Require Import Base Param ParamProofs Vtree VtreeProofs Heap Manager HeapProofs SerProofs.

(** ** Strict weak orders on a predicate *)
Record pord (P : pops) (pg : P -> Prop) : Prop := {
  po_refl : forall a, pg a -> peq a a = true;
  po_sym : forall a b, pg a -> pg b -> peq a b = peq b a;
  po_trans : forall a b c, pg a -> pg b -> pg c -> peq a b = true -> peq b c = true -> peq a c = true;
  po_lt_trans : forall a b c, pg a -> pg b -> pg c -> plt a b = true -> plt b c = true -> plt a c = true;
  po_tri : forall a b, pg a -> pg b ->
    (plt a b = true /\ peq a b = false /\ plt b a = false) \/
    (plt a b = false /\ peq a b = true /\ plt b a = false) \/
    (plt a b = false /\ peq a b = false /\ plt b a = true);
}.
(** [good] as a predicate on the carrier of [Lcode] *)
Definition cgood : Lcode -> Prop := good.
Definition lc (x : xr) : Lcode := mkp x.
Lemma pord_code : pord Lcode cgood.
Proof.
  split.
  - intros a _. apply p_eq_refl.
  - intros a b _ _. apply p_eq_sym.
  - intros a b c _ _ _. apply p_eq_trans.
  - intros a b c Ha Hb Hc. apply p_lt_trans; auto.
  - intros a b Ha Hb. destruct (comparison_full a b b Ha Hb Hb) as (_ & _ & H & _). exact H.
Qed.
Lemma pord_exact P val : pexact P val -> pord P (fun _ => True).
Proof.
  intros HP.
  assert (forall a b, peq a b = false -> val a <> val b) as NE.
  { intros a b E X. apply (val_eq HP) in X. congruence. }
  assert (forall a b, plt a b = false -> (val b <= val a)%R) as NL.
  { intros a b E. apply Rnot_lt_le. intros X. apply (val_lt HP) in X. congruence. }
  split.
  - intros a _. apply (val_eq HP). auto.
  - intros a b _ _. destruct (peq a b) eqn:E1, (peq b a) eqn:E2; auto.
    + apply (val_eq HP) in E1. apply NE in E2. congruence.
    + apply (val_eq HP) in E2. apply NE in E1. congruence.
  - intros a b c _ _ _ H1 H2. apply (val_eq HP) in H1, H2. apply (val_eq HP). congruence.
  - intros a b c _ _ _ H1 H2. apply (val_lt HP) in H1, H2. apply (val_lt HP). lra.
  - intros a b _ _. destruct (plt a b) eqn:E1, (peq a b) eqn:E2, (plt b a) eqn:E3; auto; exfalso;
      repeat match goal with
             | H : plt _ _ = true |- _ => apply (val_lt HP) in H
             | H : peq _ _ = true |- _ => apply (val_eq HP) in H
             | H : plt _ _ = false |- _ => apply NL in H
             | H : peq _ _ = false |- _ => apply NE in H
             end; try lra. 
Qed.

Section Order.
Context {P : pops} (pg : P -> Prop) (HO : pord P pg).
Notation heap := (heap P). Notation mgr := (mgr P). Notation node := (node P).
Definition node_good (nd : node) : Prop :=
  match n_body nd with
  | BLit _ => True
  | BTop _ pt pf => pg pt
  | BDec es => Forall (fun e => pg (e_param e)) es
  end.
Definition elems_good (es : list (elem P)) := Forall (fun e => pg (e_param e)) es.

(** three-way comparison of elements: a lexicographic order *)
Lemma plt_excl a b : pg a -> pg b -> peq a b = true -> plt a b = false /\ plt b a = false.
Proof. intros Ha Hb E. destruct (po_tri _ _ HO a b Ha Hb) as [(A & B & C)|[(A & B & C)|(A & B & C)]]; auto; congruence. Qed.
Lemma plt_not_eq a b : pg a -> pg b -> plt a b = true -> peq a b = false /\ plt b a = false.
Proof. intros Ha Hb E. destruct (po_tri _ _ HO a b Ha Hb) as [(A & B & C)|[(A & B & C)|(A & B & C)]]; auto; congruence. Qed.
Lemma plt_total a b : pg a -> pg b -> peq a b = false -> plt a b = false -> plt b a = true.
Proof. intros Ha Hb E F. destruct (po_tri _ _ HO a b Ha Hb) as [(A & B & C)|[(A & B & C)|(A & B & C)]]; auto; congruence. Qed.
Lemma plt_eq_l a b c : pg a -> pg b -> pg c -> peq a b = true -> plt b c = true -> plt a c = true.
Proof.
  intros Ha Hb Hc E L. destruct (plt_not_eq b c Hb Hc L) as [N1 N2].
  destruct (po_tri _ _ HO a c Ha Hc) as [(A & B & C)|[(A & B & C)|(A & B & C)]]; auto; exfalso.
  - assert (peq b c = true); [|congruence]. apply (po_trans _ _ HO) with a; auto. rewrite (po_sym _ _ HO); auto.
  - pose proof (po_lt_trans _ _ HO b c a Hb Hc Ha L C) as X. destruct (plt_excl a b Ha Hb E). congruence.
Qed.
Lemma plt_eq_r a b c : pg a -> pg b -> pg c -> plt a b = true -> peq b c = true -> plt a c = true.
Proof.
  intros Ha Hb Hc L E. destruct (plt_not_eq a b Ha Hb L) as [N1 N2].
  destruct (po_tri _ _ HO a c Ha Hc) as [(A & B & C)|[(A & B & C)|(A & B & C)]]; auto; exfalso.
  - assert (peq a b = true); [|congruence]. apply (po_trans _ _ HO) with c; auto. rewrite (po_sym _ _ HO); auto.
  - pose proof (po_lt_trans _ _ HO c a b Hc Ha Hb C L) as X. destruct (plt_excl b c Hb Hc E). congruence.
Qed.

(** The comparison on elements of equal position. *)
Definition e_lt (x y : elem P) : bool :=
  if negb (Nat.eqb (e_prime x) (e_prime y)) then Nat.ltb (e_prime x) (e_prime y)
  else if negb (Nat.eqb (e_sub x) (e_sub y)) then Nat.ltb (e_sub x) (e_sub y)
  else plt (e_param x) (e_param y).
Definition e_eq (x y : elem P) : bool :=
  Nat.eqb (e_prime x) (e_prime y) && Nat.eqb (e_sub x) (e_sub y) && peq (e_param x) (e_param y).
Lemma elems_less_cons x a y b : pg (e_param x) -> pg (e_param y) ->
  elems_less (x :: a) (y :: b) = if e_eq x y then elems_less a b else e_lt x y.
Proof.
  intros Hx Hy. simpl. unfold e_eq, e_lt. destruct (Nat.eqb (e_prime x) (e_prime y)); simpl; auto.
  destruct (Nat.eqb (e_sub x) (e_sub y)); simpl; auto. destruct (peq (e_param x) (e_param y)); simpl; auto.
Qed.
Lemma e_eq_iff x y : e_eq x y = true <-> e_prime x = e_prime y /\ e_sub x = e_sub y /\ peq (e_param x) (e_param y) = true.
Proof. unfold e_eq. rewrite !andb_true_iff, !Nat.eqb_eq. tauto. Qed.
Lemma e_lt_iff x y : e_lt x y = true <-> (e_prime x < e_prime y \/ (e_prime x = e_prime y /\ (e_sub x < e_sub y \/ (e_sub x = e_sub y /\ plt (e_param x) (e_param y) = true)))).
Proof.
  unfold e_lt. destruct (Nat.eqb (e_prime x) (e_prime y)) eqn:E1; simpl.
  - apply Nat.eqb_eq in E1. destruct (Nat.eqb (e_sub x) (e_sub y)) eqn:E2; simpl.
    + apply Nat.eqb_eq in E2. split; [intros H; right; split; auto; right; auto|]. intros [H|(_ & [H|(_ & H)])]; auto; lia.
    + apply Nat.eqb_neq in E2. rewrite Nat.ltb_lt. split; [intros; right; auto|]. intros [H|(_ & [H|(H & _)])]; auto; lia.
  - apply Nat.eqb_neq in E1. rewrite Nat.ltb_lt. split; [intros; left; auto|]. intros [H|(H & _)]; auto; lia.
Qed.
Lemma e_tri x y : pg (e_param x) -> pg (e_param y) -> e_eq x y = false -> e_lt x y = true \/ e_lt y x = true.
Proof.
  intros Hx Hy E. rewrite !e_lt_iff. destruct (Nat.lt_trichotomy (e_prime x) (e_prime y)) as [H|[H|H]]; auto.
  destruct (Nat.lt_trichotomy (e_sub x) (e_sub y)) as [H'|[H'|H']]; auto 6.
  assert (peq (e_param x) (e_param y) = false) as N.
  { destruct (peq (e_param x) (e_param y)) eqn:E'; auto. assert (e_eq x y = true) by (apply e_eq_iff; auto). congruence. }
  destruct (plt (e_param x) (e_param y)) eqn:L; auto 8. pose proof (plt_total _ _ Hx Hy N L). auto 8.
Qed.
Lemma e_lt_trans x y z : pg (e_param x) -> pg (e_param y) -> pg (e_param z) -> e_lt x y = true -> e_lt y z = true -> e_lt x z = true.
Proof.
  intros Hx Hy Hz. rewrite !e_lt_iff.
  intros [H|(H & [H1|(H1 & H2)])] [K|(K & [K1|(K1 & K2)])]; try (left; lia); right; (split; [lia|]); try (left; lia).
  right. split; [lia|]. exact (po_lt_trans _ _ HO _ _ _ Hx Hy Hz H2 K2).
Qed.
Lemma e_eq_lt x y z : pg (e_param x) -> pg (e_param y) -> pg (e_param z) -> e_eq x y = true -> e_lt y z = true -> e_lt x z = true.
Proof.
  intros Hx Hy Hz. rewrite !e_lt_iff, e_eq_iff. intros (E1 & E2 & E3) [K|(K & [K1|(K1 & K2)])]; [left; lia| |]; right; (split; [lia|]); [left; lia|].
  right. split; [lia|]. exact (plt_eq_l _ _ _ Hx Hy Hz E3 K2).
Qed.
Lemma e_lt_eq x y z : pg (e_param x) -> pg (e_param y) -> pg (e_param z) -> e_lt x y = true -> e_eq y z = true -> e_lt x z = true.
Proof.
  intros Hx Hy Hz. rewrite !e_lt_iff, e_eq_iff. intros [K|(K & [K1|(K1 & K2)])] (E1 & E2 & E3); [left; lia| |]; right; (split; [lia|]); [left; lia|].
  right. split; [lia|]. exact (plt_eq_r _ _ _ Hx Hy Hz K2 E3).
Qed.
Lemma e_lt_excl x y : pg (e_param x) -> pg (e_param y) -> e_lt x y = true -> e_eq x y = false /\ e_lt y x = false.
Proof.
  intros Hx Hy L. apply e_lt_iff in L. split.
  - destruct (e_eq x y) eqn:E; auto. apply e_eq_iff in E as (E1 & E2 & E3). destruct L as [L|(L & [L1|(L1 & L2)])]; try lia.
    destruct (plt_excl _ _ Hx Hy E3). congruence.
  - destruct (e_lt y x) eqn:E; auto. apply e_lt_iff in E. destruct L as [L|(L & [L1|(L1 & L2)])], E as [K|(K & [K1|(K1 & K2)])]; try lia.
    destruct (plt_not_eq _ _ Hx Hy L2). congruence.
Qed.
Lemma e_eq_sym x y : pg (e_param x) -> pg (e_param y) -> e_eq x y = e_eq y x.
Proof. intros Hx Hy. unfold e_eq. rewrite (Nat.eqb_sym (e_prime x)), (Nat.eqb_sym (e_sub x)), (po_sym _ _ HO _ _ Hx Hy). auto. Qed.
Lemma e_eq_trans x y z : pg (e_param x) -> pg (e_param y) -> pg (e_param z) -> e_eq x y = true -> e_eq y z = true -> e_eq x z = true.
Proof.
  intros Hx Hy Hz. rewrite !e_eq_iff. intros (A & B & C) (D & E & F). repeat split; try congruence.
  exact (po_trans _ _ HO _ _ _ Hx Hy Hz C F).
Qed.

Ltac good_cons H := apply Forall_cons_iff in H as [? H].
Lemma elems_less_trans a : forall b c, elems_good a -> elems_good b -> elems_good c ->
  elems_less a b = true -> elems_less b c = true -> elems_less a c = true.
Proof.
  induction a as [|x a IH]; intros [|y b] [|z c] Ga Gb Gc; try (simpl; congruence).
  - apply Forall_cons_iff in Ga as [Gx Ga], Gb as [Gy Gb], Gc as [Gz Gc].
    rewrite !elems_less_cons by auto. destruct (e_eq x y) eqn:E1, (e_eq y z) eqn:E2; intros H1 H2.
    + rewrite (e_eq_trans x y z Gx Gy Gz E1 E2). exact (IH b c Ga Gb Gc H1 H2).
    + pose proof (e_eq_lt x y z Gx Gy Gz E1 H2) as L. destruct (e_lt_excl x z Gx Gz L) as [-> _]. exact L.
    + pose proof (e_lt_eq x y z Gx Gy Gz H1 E2) as L. destruct (e_lt_excl x z Gx Gz L) as [-> _]. exact L.
    + pose proof (e_lt_trans x y z Gx Gy Gz H1 H2) as L. destruct (e_lt_excl x z Gx Gz L) as [-> _]. exact L.
Qed.
Lemma elems_less_excl a : forall b, elems_good a -> elems_good b -> elems_less a b = true -> elems_less b a = false.
Proof.
  induction a as [|x a IH]; intros [|y b] Ga Gb; try (simpl; congruence).
  - apply Forall_cons_iff in Ga as [Gx Ga], Gb as [Gy Gb].
    rewrite !elems_less_cons, (e_eq_sym y x) by auto. destruct (e_eq x y); auto. apply e_lt_excl; auto.
Qed.
Lemma elems_eq_iff a : forall b, elems_good a -> elems_good b ->
  (elems_less a b = false /\ elems_less b a = false <-> elems_eq a b = true).
Proof.
  induction a as [|x a IH]; intros [|y b] Ga Gb; try (simpl; split; [intros [A B]; congruence|intros; split; congruence]).
  apply Forall_cons_iff in Ga as [Gx Ga], Gb as [Gy Gb].
  rewrite !elems_less_cons, (e_eq_sym y x) by auto.
  assert (elems_eq (x :: a) (y :: b) = e_eq x y && elems_eq a b) as EE by reflexivity. rewrite EE.
  destruct (e_eq x y) eqn:E; simpl.
  - apply IH; auto.
  - split; [|discriminate]. intros [A B]. destruct (e_tri x y Gx Gy E); congruence.
Qed.

Definition slot_kind (nd : node) : nat := match n_body nd with BLit _ => 0 | BTop _ _ _ => 1 | BDec _ => 2 end.
Lemma node_less_trans a b c : node_good a -> node_good b -> node_good c ->
  node_less a b = true -> node_less b c = true -> node_less a c = true.
Proof.
  unfold node_less, node_good. intros Ga Gb Gc.
  destruct (N.eqb (n_flag a) (n_flag b)) eqn:E1; simpl.
  - apply N.eqb_eq in E1. rewrite E1. destruct (N.eqb (n_flag b) (n_flag c)) eqn:E2; simpl; auto.
    destruct (n_body a) as [la|va ta fa|ea], (n_body b) as [lb|vb tb fb|eb], (n_body c) as [lc|vc tc fc|ec]; try congruence; try reflexivity.
    + rewrite !Z.ltb_lt. lia.
    + intros H1 H2. destruct (N.eqb va vb) eqn:Ev1; simpl in H1.
      * apply N.eqb_eq in Ev1. subst va. destruct (N.eqb vb vc) eqn:Ev2; simpl in *; auto.
        exact (po_lt_trans _ _ HO _ _ _ Ga Gb Gc H1 H2).
      * apply N.ltb_lt in H1. destruct (N.eqb vb vc) eqn:Ev2; simpl in H2.
        -- apply N.eqb_eq in Ev2. subst vc. rewrite Ev1. simpl. apply N.ltb_lt. auto.
        -- apply N.ltb_lt in H2. replace (N.eqb va vc) with false by (symmetry; apply N.eqb_neq; lia). apply N.ltb_lt. lia.
    + intros H1 H2. eapply elems_less_trans; [| | |exact H1|exact H2]; auto.
  - apply N.eqb_neq in E1. intros H1. apply N.ltb_lt in H1. destruct (N.eqb (n_flag b) (n_flag c)) eqn:E2; simpl; intros H2.
    + apply N.eqb_eq in E2. replace (N.eqb (n_flag a) (n_flag c)) with false by (symmetry; apply N.eqb_neq; lia). apply N.ltb_lt. lia.
    + apply N.ltb_lt in H2. replace (N.eqb (n_flag a) (n_flag c)) with false by (symmetry; apply N.eqb_neq; lia). apply N.ltb_lt. lia.
Qed.
Lemma node_less_asym a b : node_good a -> node_good b -> node_less a b = true -> node_less b a = false.
Proof.
  unfold node_less, node_good. intros Ga Gb. rewrite (N.eqb_sym (n_flag b)).
  destruct (N.eqb (n_flag a) (n_flag b)) eqn:E1; simpl.
  - destruct (n_body a) as [la|va ta fa|ea], (n_body b) as [lb|vb tb fb|eb]; try congruence.
    + rewrite Z.ltb_lt, Z.ltb_ge. lia.
    + rewrite (N.eqb_sym vb). destruct (N.eqb va vb); simpl.
      * apply plt_not_eq; auto.
      * rewrite N.ltb_lt, N.ltb_ge. lia.
    + apply elems_less_excl; auto.
  - rewrite N.ltb_lt, N.ltb_ge. lia.
Qed.
Lemma equiv_node_eq a b : node_good a -> node_good b -> (equiv a b = true <-> node_eq a b = true).
Proof.
  unfold equiv, node_less, node_eq, node_good. intros Ga Gb. rewrite (N.eqb_sym (n_flag b)).
  destruct (N.eqb (n_flag a) (n_flag b)) eqn:E1; simpl.
  - destruct (n_body a) as [la|va ta fa|ea], (n_body b) as [lb|vb tb fb|eb]; simpl; try (split; congruence).
    + rewrite andb_true_r, Z.eqb_eq, andb_true_iff, !negb_true_iff, !Z.ltb_ge. lia.
    + rewrite andb_true_r, (N.eqb_sym vb). destruct (N.eqb va vb) eqn:Ev; simpl.
      * rewrite andb_true_iff, !negb_true_iff. split.
        -- intros [H1 H2]. destruct (peq ta tb) eqn:E; auto. pose proof (plt_total _ _ Ga Gb E H1). congruence.
        -- apply plt_excl; auto.
      * rewrite andb_true_iff, !negb_true_iff, !N.ltb_ge. apply N.eqb_neq in Ev. split; [lia|discriminate].
    + rewrite <- elems_eq_iff by auto. rewrite andb_true_iff, !negb_true_iff. tauto.
  - apply N.eqb_neq in E1. assert (forall x : bool, (if x then false else false) = false) as _ by (intros []; auto).
    split.
    + rewrite andb_true_iff, !negb_true_iff, !N.ltb_ge. lia.
    + destruct (n_body a), (n_body b); simpl; rewrite ?andb_false_r; simpl; discriminate.
Qed.
Lemma elems_eq_sym a : forall b, elems_good a -> elems_good b -> elems_eq a b = true -> elems_eq b a = true.
Proof. intros b Ga Gb H. apply elems_eq_iff in H as [A B]; auto. apply elems_eq_iff; auto. Qed.
Lemma elems_eq_trans a : forall b c, elems_good a -> elems_good b -> elems_good c -> elems_eq a b = true -> elems_eq b c = true -> elems_eq a c = true.
Proof.
  induction a as [|x a IH]; intros [|y b] [|z c] Ga Gb Gc H1 H2; simpl in H1, H2 |- *; try congruence.
  apply Forall_cons_iff in Ga as [Gx Ga], Gb as [Gy Gb], Gc as [Gz Gc].
  apply andb_true_iff in H1 as [H1 H1'], H2 as [H2 H2']. apply andb_true_iff. split; [|exact (IH b c Ga Gb Gc H1' H2')].
  exact (e_eq_trans x y z Gx Gy Gz H1 H2).
Qed.
Lemma node_eq_trans a b c : node_good a -> node_good b -> node_good c -> node_eq a b = true -> node_eq b c = true -> node_eq a c = true.
Proof.
  unfold node_good, node_eq. intros Ga Gb Gc.
  destruct (n_body a) as [la|va ta fa|ea], (n_body b) as [lb|vb tb fb|eb], (n_body c) as [lc|vc tc fc|ec]; try congruence;
    rewrite !andb_true_iff, ?Z.eqb_eq, ?N.eqb_eq.
  - intros [A B] [C D]. split; congruence.
  - intros [[A B] C] [[D E] F]. repeat split; try congruence. exact (po_trans _ _ HO _ _ _ Ga Gb Gc C F).
  - intros [A B] [C D]. split; [congruence|]. exact (elems_eq_trans _ _ _ Ga Gb Gc B D).
Qed.
Theorem comparator_swo a b c : node_good a -> node_good b -> node_good c ->
  node_less a a = false /\ (node_less a b = true -> node_less b a = false) /\
  (node_less a b = true -> node_less b c = true -> node_less a c = true) /\
  (equiv a b = true -> equiv b c = true -> equiv a c = true) /\
  (equiv a b = true <-> node_eq a b = true).
Proof.
  intros Ga Gb Gc. split; [|split; [|split; [|split]]].
  - destruct (node_less a a) eqn:E; auto. pose proof (node_less_asym a a Ga Ga E). congruence.
  - apply node_less_asym; auto.
  - apply node_less_trans; auto.
  - intros H1 H2. apply equiv_node_eq in H1, H2; auto. apply equiv_node_eq; auto. eapply node_eq_trans; [| | |exact H1|exact H2]; auto.
  - apply equiv_node_eq; auto.
Qed.

(** Asking again for a node that is still held returns it. *)
Lemma po_irrefl a : pg a -> plt a a = false.
Proof. intros H. destruct (po_tri _ _ HO a a H H) as [(A & B & C)|[(A & B & C)|(A & B & C)]]; auto. Qed.
Theorem unique_again m nd i ndi : Wf m -> In i (m_live m) -> nth_error (m_heap m) i = Some ndi ->
  (forall j b, In j (m_live m) -> nth_error (m_heap m) j = Some b -> same_slot (m_vt m) nd b = true -> node_good b) -> node_good nd ->
  n_vt nd = n_vt ndi -> node_eq nd ndi = true -> GetUniqueNode m nd = (i, m).
Proof.
  intros W Hi Ei HG Gn EV EQ.
  assert (same_slot (m_vt m) nd ndi = true) as SL.
  { unfold same_slot. rewrite EV, Nat.eqb_refl. simpl. unfold node_eq in EQ. destruct (n_body nd), (n_body ndi); auto; discriminate. }
  assert (Gi : node_good ndi) by eauto.
  apply equiv_node_eq in EQ; auto. unfold GetUniqueNode.
  destruct (find _ (m_live m)) as [j|] eqn:F.
  - apply find_some in F as [F1 F2]. destruct (nth_error (m_heap m) j) as [b|] eqn:Ej; [|discriminate].
    apply andb_true_iff in F2 as [F2 F3]. f_equal. symmetry. eapply (wf_canon _ W i j ndi b); eauto.
    + unfold same_slot in SL, F2 |- *. apply andb_true_iff in SL as [S1 S2], F2 as [S3 S4]. apply Nat.eqb_eq in S1, S3.
      rewrite <- S1, <- S3, Nat.eqb_refl. simpl. destruct (n_body nd), (n_body ndi), (n_body b); auto.
    + destruct (comparator_swo ndi nd b) as (_ & _ & _ & T & _); eauto. apply T; auto. rewrite equiv_sym. auto.
  - exfalso. pose proof (find_none _ _ F i Hi) as X. simpl in X. rewrite Ei, SL, EQ in X. discriminate.
Qed.
End Order.

(** ** Histories of manager operations *)
Section History.
Context {P : pops}.
Notation heap := (heap P). Notation mgr := (mgr P). Notation node := (node P).
Inductive op :=
| OTop (v fl : N) (pt pf : P)
| OLit (l : Z) (fl : N)
| ODec (ps ss : list nat) (ws : list P) (fl : N)
| OTrue (p : path) (fl : N)
| ONorm (target : option path) (i : nat) (fl : N)
| OLoad (source : heap) (ud : udata) (target : option path) (root : nat) (fl : N)
| OMul (a b : nat) (fl : N)
| OGc (used : list nat)
| OGcFlags (flags : list N).
Definition step (m : mgr) (o : op) : res mgr :=
  match o with
  | OTop v fl pt pf => do (_, m') <- GetPsddTopNode m v fl pt pf ;; Ok m'
  | OLit l fl => do (_, m') <- GetPsddLiteralNode m l fl ;; Ok m'
  | ODec ps ss ws fl => do (_, m') <- GetConformedPsddDecisionNode m ps ss ws fl ;; Ok m'
  | OTrue p fl => do (_, m') <- GetTrueNode p fl m ;; Ok m'
  | ONorm target i fl => do (_, m') <- NormalizePsddNode target i fl m ;; Ok m'
  | OLoad hs ud target root fl => do (_, m') <- LoadPsddNode hs ud target root fl m ;; Ok m'
  | OMul a b fl => do (_, m') <- Multiply m a b fl ;; Ok m'
  | OGc used => DeleteUnusedPsddNodes m used
  | OGcFlags flags => Ok (DeletePsddNodesWithoutFlagIndexes m flags)
  end.
Definition runs (m : mgr) (ops : list op) : res mgr := foldM step ops m.
Context (peq_refl : forall a : P, peq a a = true) (plt_irrefl : forall a : P, plt a a = false).
Lemma get_true_valid f p fl tm (m : mgr) r : get_true f p fl tm m = Ok r -> nlookup (vpos (m_vt m) p) tm = None -> exists s, subtree (m_vt m) p = Some s.
Proof.
  destruct f as [|f]; [discriminate|]. cbn [get_true]. intros E N. rewrite N in E. destruct (subtree (m_vt m) p); [eauto|discriminate].
Qed.
Lemma step_wf (m : mgr) o m' : Wf m -> step m o = Ok m' -> Wf m' /\ m_vt m' = m_vt m /\ exists l, m_heap m' = m_heap m ++ l.
Proof.
  intros W E.
  assert (forall fl, Wf m' /\ mext fl m m' -> Wf m' /\ m_vt m' = m_vt m /\ exists l, m_heap m' = m_heap m ++ l) as K.
  { intros fl [A X]. split; auto. split; [apply (me_vt _ _ _ X)|]. destruct (me_heap _ _ _ X) as (l & H & _). eauto. }
  destruct o; cbn [step] in E.
  - bk E as [i m1] E1. injection E as <-. apply top_wf in E1 as (A & B & _); eauto.
  - bk E as [i m1] E1. injection E as <-. apply literal_wf in E1 as (A & B & _); eauto.
  - bk E as [i m1] E1. injection E as <-. apply conformed_wf in E1 as (A & B & _); eauto.
  - bk E as [i m1] E1. injection E as <-. pose proof E1 as E2. unfold GetTrueNode in E2. bk E2 as x E3.
    apply get_true_valid in E3; auto. apply get_true_node_wf in E1 as (A & B & _); eauto.
  - bk E as [j m1] E1. injection E as <-. apply normalize_node_wf in E1 as (A & B & _); eauto.
  - bk E as [[j u] m1] E1. injection E as <-. apply load_wf in E1 as (A & B & _); eauto.
  - bk E as [r m1] E1. injection E as <-. apply multiply_wf in E1; eauto.
  - pose proof (gc_wf _ _ _ W E). split; auto. unfold DeleteUnusedPsddNodes in E. bk E as c Ec. injection E as <-. simpl. split; auto.
    exists []. rewrite app_nil_r. auto.
  - injection E as <-. split; [apply gc_flags_wf; auto|]. simpl. split; auto. exists []. rewrite app_nil_r. auto.
Qed.
Lemma runs_wf ops : forall m m' : mgr, Wf m -> runs m ops = Ok m' -> Wf m' /\ m_vt m' = m_vt m /\ exists l, m_heap m' = m_heap m ++ l.
Proof.
  induction ops as [|o ops IH]; intros m m' W E; cbn [runs foldM] in E.
  - injection E as <-. split; auto. split; auto. exists []. rewrite app_nil_r. auto.
  - unfold runs in E. cbn [foldM] in E. bk E as m1 E1. apply step_wf in E1 as (W1 & V1 & l1 & H1); auto.
    apply IH in E as (W2 & V2 & l2 & H2); auto. split; auto. split; [congruence|]. exists (l1 ++ l2). rewrite H2, H1, app_assoc. auto.
Qed.
(** Node equality (operator==) at one vtree node means the same node. *)
Context (peq_sym : forall a b : P, peq a b = peq b a) (peq_not_lt : forall a b : P, peq a b = true -> plt a b = false).
Lemma elems_eq_less a : forall b : list (elem P), elems_eq a b = true -> elems_less a b = false /\ elems_less b a = false.
Proof.
  induction a as [|x a IH]; intros [|y b] H; simpl in *; try discriminate; auto.
  apply andb_true_iff in H as [H H3]. apply andb_true_iff in H as [H H2]. apply andb_true_iff in H as [H0 H1].
  rewrite (Nat.eqb_sym (e_prime y)), (Nat.eqb_sym (e_sub y)), H0, H1, (peq_sym (e_param y)), H2. simpl. auto.
Qed.
Lemma node_eq_equiv (a b : node) : node_eq a b = true -> equiv a b = true.
Proof.
  unfold node_eq, equiv, node_less. intros H. rewrite (N.eqb_sym (n_flag b)).
  destruct (n_body a) as [la|va ta fa|ea], (n_body b) as [lb|vb tb fb|eb]; try discriminate;
    repeat match goal with H : _ && _ = true |- _ => apply andb_true_iff in H as [? ?] end.
  - apply Z.eqb_eq in H. subst. rewrite H0. simpl. rewrite Z.ltb_irrefl. auto.
  - rewrite H1, (N.eqb_sym vb), H. simpl. rewrite (peq_not_lt _ _ H0). rewrite peq_sym in H0. rewrite (peq_not_lt _ _ H0). auto.
  - rewrite H. simpl. destruct (elems_eq_less _ _ H0) as [-> ->]. auto.
Qed.
Theorem history_canonical t ops (m : mgr) : NoDup (leaves t) -> runs (new_mgr t) ops = Ok m ->
  NoDup (m_live m) /\ 
  (forall i, In i (m_live m) -> i < length (m_heap m)) /\ 
  (forall i j a b, In i (m_live m) -> In j (m_live m) ->
    nth_error (m_heap m) i = Some a -> nth_error (m_heap m) j = Some b ->
    n_vt a = n_vt b -> node_eq a b = true -> i = j).
Proof.
  intros ND E. apply runs_wf in E as (W & _); [|apply wf_new; auto]. split; [apply W|]. split; [apply W|].
  intros i j a b Hi Hj Ei Ej EV EQ. apply (wf_canon _ W i j a b); auto.
  - unfold same_slot. rewrite EV, Nat.eqb_refl. unfold node_eq in EQ. destruct (n_body a), (n_body b); auto; discriminate.
  - apply node_eq_equiv; auto.
Qed.
(** Nothing is ever modified. *)
Theorem history_immutable (m : mgr) ops m' : Wf m -> runs m ops = Ok m' ->
  forall i nd, nth_error (m_heap m) i = Some nd -> nth_error (m_heap m') i = Some nd.
Proof.
  intros W E i nd H. apply runs_wf in E as (_ & _ & l & ->); auto. rewrite nth_error_app1; auto. apply nth_error_Some. congruence.
Qed.
End History.
