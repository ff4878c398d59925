(** The unique table with search trees instead of a list: std::set as libstdc++ implements it, for every way of balancing, and the table operations of
    src/psdd_unique_table.cpp on it.  In Heap.v a lookup finds an equivalent entry of a list; here it is proved that lookups in search trees return the
    same (C81). *)
From Coq Require Import Reals Lra Sorted.
From Verif Require Import Base Param Vtree VtreeProofs Heap Manager HeapProofs SerProofs OrderProofs CanonProofs LoadProofs MulProofs ReplayProofs.

(** A red-black tree of node indexes; colours only matter for balancing *)
Inductive tree := TE | TN (l : tree) (x : nat) (r : tree).
Fixpoint inorder (t : tree) : list nat := match t with TE => [] | TN l x r => inorder l ++ x :: inorder r end.
Section Set_.
Context {P : pops}.
Notation heap := (heap P). Notation mgr := (mgr P). Notation node := (node P).
(** The comparator on indexes; every index in a table is one of a node of the heap *)
Definition lessi (h : heap) (i : nat) (b : node) : bool := match nth_error h i with Some a => node_less a b | None => false end.
Definition iless (h : heap) (a : node) (i : nat) : bool := match nth_error h i with Some b => node_less a b | None => false end.
(** _M_lower_bound: the first element that is not less than the key; [y]: the best one so far *)
Fixpoint lower (h : heap) (key : node) (t : tree) (y : option nat) : option nat :=
  match t with
  | TE => y
  | TN l x r => if negb (lessi h x key) then lower h key l (Some x) else lower h key r y
  end.
(** std::set::find *)
Definition set_find (h : heap) (key : node) (t : tree) : option nat :=
  match lower h key t None with
  | None => None
  | Some y => if iless h key y then None else Some y
  end.
(** std::set::insert before balancing: [pred] is the element before the place (_M_get_insert_unique_pos); [None]: an equivalent element is there *)
Fixpoint set_insert (h : heap) (key : node) (i : nat) (pred : option nat) (t : tree) : option tree :=
  match t with
  | TE => match pred with
          | None => Some (TN TE i TE)
          | Some p => if lessi h p key then Some (TN TE i TE) else None
          end
  | TN l x r =>
      if iless h key x then match set_insert h key i pred l with Some l' => Some (TN l' x r) | None => None end
      else match set_insert h key i (Some x) r with Some r' => Some (TN l x r') | None => None end
  end.
(** Any tree of a list; what it looks like does not matter as it is balanced afterwards *)
Definition of_list (l : list nat) : tree := fold_right (fun x t => TN TE x t) TE l.
(** The three tables literal_node_table_, decision_node_table_, top_node_table_: sets by kind of node and position in the vtree *)
Definition kind (nd : node) : nat := match n_body nd with BLit _ => 1 | BDec _ => 2 | BTop _ _ _ => 3 end.
Definition slot (root : vtree) (nd : node) : nat * nat := (kind nd, vpos root (n_vt nd)).
Record tables := MkT { t_vt : vtree; t_heap : heap; t_sets : nat * nat -> tree }.
Definition slot_eqb (a b : nat * nat) : bool := Nat.eqb (fst a) (fst b) && Nat.eqb (snd a) (snd b).
Definition put (T : nat * nat -> tree) (s : nat * nat) (t : tree) : nat * nat -> tree := fun s' => if slot_eqb s' s then t else T s'.
(** GetUniqueNode, psdd_unique_table.cpp 109-203; [bal]: what balancing makes of the tree *)
Definition tget (bal : tree -> tree) (T : tables) (nd : node) : nat * tables :=
  let s := slot (t_vt T) nd in
  let t := t_sets T s in
  match set_find (t_heap T) nd t with
  | Some i => (i, T)
  | None =>
      let i := length (t_heap T) in
      let t' := match set_insert (t_heap T) nd i None t with Some t' => bal t' | None => t end in
      (i, MkT (t_vt T) (t_heap T ++ [nd]) (put (t_sets T) s t'))
  end.
(** The two deletions, psdd_unique_table.cpp 204-317: entries are erased one by one *)
Definition tkeep (bal : nat * nat -> tree -> tree) (keep : nat -> bool) (T : tables) : tables :=
  MkT (t_vt T) (t_heap T) (fun s => bal s (of_list (filter keep (inorder (t_sets T s))))).
Definition tnew (t : vtree) : tables := MkT t [] (fun _ => TE).

(** What operations do to the table *)
Inductive request := RGet (nd : node) (i : nat) | RKeep (keep : nat -> bool).
(** with the list of Heap.v: the answers are [i] *)
Inductive trace : mgr -> list request -> mgr -> Prop :=
| trace_nil m : trace m [] m
| trace_get m nd i m1 rs m2 : GetUniqueNode m nd = (i, m1) -> trace m1 rs m2 -> trace m (RGet nd i :: rs) m2
| trace_keep m keep rs m2 : trace (MkM (m_vt m) (m_heap m) (filter keep (m_live m))) rs m2 -> trace m (RKeep keep :: rs) m2.
Definition balances (bal : tree -> tree) : Prop := forall t, inorder (bal t) = inorder t.
(** with search trees, for any balancing *)
Inductive ttrace : tables -> list request -> tables -> Prop :=
| ttrace_nil T : ttrace T [] T
| ttrace_get T nd i bal T1 rs T2 : balances bal -> tget bal T nd = (i, T1) -> ttrace T1 rs T2 -> ttrace T (RGet nd i :: rs) T2
| ttrace_keep T keep bal rs T2 : (forall s, balances (bal s)) -> ttrace (tkeep bal keep T) rs T2 -> ttrace T (RKeep keep :: rs) T2.

(** ** Search trees *)
Context (pg : P -> Prop) (HO : pord P pg).
Notation good := (node_good pg).
Definition at_ (h : heap) (i : nat) (nd : node) : Prop := nth_error h i = Some nd /\ good nd.
Definition valid (h : heap) (l : list nat) : Prop := forall i, In i l -> exists nd, at_ h i nd.
Definition before (h : heap) (i j : nat) : Prop := exists a b, nth_error h i = Some a /\ nth_error h j = Some b /\ node_less a b = true.
Definition sorted (h : heap) (l : list nat) : Prop := StronglySorted (before h) l.
Lemma sorted_app h l1 l2 : sorted h (l1 ++ l2) <-> sorted h l1 /\ sorted h l2 /\ forall x y, In x l1 -> In y l2 -> before h x y.
Proof.
  unfold sorted. induction l1 as [|a l1 IH]; simpl.
  - split; [intros H; repeat split; auto; [constructor|intros x y []]|tauto].
  - split.
    + intros H. apply StronglySorted_inv in H as [H F]. apply IH in H as (H1 & H2 & H3). rewrite Forall_app in F. destruct F as [F1 F2]. repeat split; auto.
      * constructor; auto.
      * intros x y [<-|Hx] Hy; auto. rewrite Forall_forall in F2. auto.
    + intros (H1 & H2 & H3). apply StronglySorted_inv in H1 as [H1 F1]. constructor; [apply IH; repeat split; auto|]. rewrite Forall_app. split; auto.
      apply Forall_forall. auto.
Qed.
Lemma sorted_cons h a l : sorted h (a :: l) <-> sorted h l /\ forall y, In y l -> before h a y.
Proof. unfold sorted. split; [intros H; apply StronglySorted_inv in H as [H F]; split; auto; apply Forall_forall; auto|intros [H F]; constructor; auto; apply Forall_forall; auto]. Qed.
Lemma less_trans a b c : good a -> good b -> good c -> node_less a b = true -> node_less b c = true -> node_less a c = true.
Proof. intros Ha Hb Hc. apply (comparator_swo pg HO a b c); auto. Qed.
Section Key.
Context (h : heap) (key : node) (GK : good key).
Lemma before_less x y : valid h [x; y] -> before h x y -> lessi h y key = true -> lessi h x key = true.
Proof.
  intros V (a & b & Ea & Eb & L). unfold lessi. rewrite Ea, Eb. destruct (V x) as (a' & Ea' & Ga); [simpl; auto|]. destruct (V y) as (b' & Eb' & Gb); [simpl; auto|].
  rewrite Ea in Ea'. rewrite Eb in Eb'. injection Ea' as <-. injection Eb' as <-. apply less_trans; auto.
Qed.
Lemma before_more x y : valid h [x; y] -> before h x y -> iless h key x = true -> iless h key y = true.
Proof.
  intros V (a & b & Ea & Eb & L). unfold iless. rewrite Ea, Eb. destruct (V x) as (a' & Ea' & Ga); [simpl; auto|]. destruct (V y) as (b' & Eb' & Gb); [simpl; auto|].
  rewrite Ea in Ea'. rewrite Eb in Eb'. injection Ea' as <-. injection Eb' as <-. intros K. exact (less_trans _ _ _ GK Ga Gb K L).
Qed.
Lemma valid_sub l l' : valid h l -> incl l' l -> valid h l'.
Proof. intros V I x Hx. apply V. auto. Qed.
Lemma lower_spec t : forall y, sorted h (inorder t) -> valid h (inorder t) ->
  lower h key t y = match find (fun x => negb (lessi h x key)) (inorder t) with Some x => Some x | None => y end.
Proof.
  induction t as [|l IHl x r IHr]; intros y S V; simpl; auto. simpl in S, V. apply sorted_app in S as (S1 & S2 & S3). apply sorted_cons in S2 as [S2 S4].
  assert (valid h (inorder l)) as Vl by (eapply valid_sub; [exact V|]; intros z Hz; apply in_or_app; auto).
  assert (valid h (inorder r)) as Vr by (eapply valid_sub; [exact V|]; intros z Hz; apply in_or_app; simpl; auto).
  destruct (lessi h x key) eqn:E; simpl.
  - rewrite IHr by auto. assert (find (fun z => negb (lessi h z key)) (inorder l ++ x :: inorder r) = find (fun z => negb (lessi h z key)) (inorder r)) as ->; auto.
    assert (forall z, In z (inorder l) -> lessi h z key = true) as AL.
    { intros z Hz. apply (before_less z x); auto; [|apply S3; simpl; auto]. eapply valid_sub; [exact V|]. intros w [<-|[<-|[]]]; apply in_or_app; simpl; auto. }
    clear - AL E. induction (inorder l) as [|a l1 IH]; simpl; [rewrite E; reflexivity|]. rewrite AL by (simpl; auto). simpl. apply IH. intros z Hz. apply AL. simpl; auto.
  - rewrite IHl by auto. clear - E. induction (inorder l) as [|a l1 IH]; simpl; [rewrite E; reflexivity|]. destruct (lessi h a key); simpl; auto.
Qed.
Definition eqv (i : nat) : bool := match nth_error h i with Some b => equiv key b | None => false end.
Lemma eqv_iff i : valid h [i] -> eqv i = true <-> lessi h i key = false /\ iless h key i = false.
Proof.
  intros V. destruct (V i) as (nd & E & _); [simpl; auto|]. unfold eqv, lessi, iless, equiv. rewrite E. rewrite andb_true_iff, !negb_true_iff. tauto.
Qed.
(** find returns the equivalent element *)
Lemma find_spec t : sorted h (inorder t) -> valid h (inorder t) ->
  match set_find h key t with
  | Some i => In i (inorder t) /\ eqv i = true
  | None => forall i, In i (inorder t) -> eqv i = false
  end.
Proof.
  intros S V. unfold set_find. rewrite lower_spec by auto. destruct (find _ (inorder t)) as [y|] eqn:F.
  - pose proof (find_some _ _ F) as [Hy Ey]. apply negb_true_iff in Ey.
    assert (exists l1 l2, inorder t = l1 ++ y :: l2 /\ forall z, In z l1 -> lessi h z key = true) as (l1 & l2 & E & A1).
    { clear - F. induction (inorder t) as [|a l IH]; simpl in F; [discriminate|]. destruct (lessi h a key) eqn:E; simpl in F.
      - destruct (IH F) as (l1 & l2 & -> & A). exists (a :: l1), l2. split; auto. intros z [<-|Hz]; auto.
      - injection F as <-. exists [], l. split; [reflexivity|intros z []]. }
    destruct (iless h key y) eqn:K.
    + intros i Hi. assert (valid h [i]) as Vi by (eapply valid_sub; [exact V|]; intros w [<-|[]]; auto). destruct (eqv i) eqn:Q; auto. apply eqv_iff in Q as [Q1 Q2]; auto.
      rewrite E in Hi. apply in_app_or in Hi as [Hi|[<-|Hi]].
      * rewrite A1 in Q1 by auto. discriminate.
      * congruence.
      * assert (iless h key i = true); [|congruence]. apply (before_more y i); auto.
        -- eapply valid_sub; [exact V|]. rewrite E. intros w [<-|[<-|[]]]; apply in_or_app; simpl; auto.
        -- rewrite E in S. apply sorted_app in S as (_ & S & _). apply sorted_cons in S as [_ S]. auto.
    + split; auto. apply eqv_iff; auto. eapply valid_sub; [exact V|]; intros w [<-|[]]; auto.
  - intros i Hi. pose proof (find_none _ _ F i Hi) as Q. simpl in Q. apply negb_false_iff in Q.
    destruct (eqv i) eqn:K; auto. apply eqv_iff in K as [K _]; [congruence|]. eapply valid_sub; [exact V|]; intros w [<-|[]]; auto.
Qed.
(** at most one *)
Lemma eqv_one l i j : sorted h l -> valid h l -> In i l -> In j l -> eqv i = true -> eqv j = true -> i = j.
Proof.
  intros S V Hi Hj Qi Qj.
  assert (forall a b, In a l -> In b l -> before h a b -> eqv a = true -> eqv b = true -> False) as K.
  { intros a b Ha Hb (na & nb & Ea & Eb & L) Qa Qb. destruct (V a Ha) as (na' & Ea' & Ga), (V b Hb) as (nb' & Eb' & Gb). rewrite Ea in Ea'. rewrite Eb in Eb'.
    injection Ea' as <-. injection Eb' as <-. unfold eqv in Qa, Qb. rewrite Ea in Qa. rewrite Eb in Qb.
    assert (equiv na nb = true) as Q. { apply (comparator_swo pg HO na key nb); auto. unfold equiv in *. rewrite andb_comm. exact Qa. }
    unfold equiv in Q. rewrite L in Q. discriminate. }
  apply In_nth_error in Hi as [ki Ei], Hj as [kj Ej].
  assert (forall l k1 k2 a b, sorted h l -> nth_error l k1 = Some a -> nth_error l k2 = Some b -> k1 < k2 -> before h a b) as ORD.
  { clear. induction l as [|x l IH]; intros k1 k2 a b S E1 E2 L; [destruct k1; discriminate|]. apply sorted_cons in S as [S S'].
    destruct k2 as [|k2]; [lia|]. destruct k1 as [|k1]; simpl in *; [injection E1 as <-; apply S'; eapply nth_error_In; eauto|]. apply (IH k1 k2); auto. lia. }
  destruct (Nat.lt_trichotomy ki kj) as [L|[->|L]]; [|congruence|]; exfalso.
  - apply (K i j); auto; [eapply nth_error_In; eauto|eapply nth_error_In; eauto|]. apply (ORD l ki kj); auto.
  - apply (K j i); auto; [eapply nth_error_In; eauto|eapply nth_error_In; eauto|]. apply (ORD l kj ki); auto.
Qed.
Lemma insert_spec i t : forall pred, (forall p, pred = Some p -> lessi h p key = true) -> valid h (inorder t) -> sorted h (inorder t) ->
  (forall x, In x (inorder t) -> eqv x = false) ->
  exists t' l1 l2, set_insert h key i pred t = Some t' /\ inorder t = l1 ++ l2 /\ inorder t' = l1 ++ i :: l2 /\
    (forall x, In x l1 -> lessi h x key = true) /\ (forall x, In x l2 -> iless h key x = true).
Proof.
  induction t as [|l IHl x r IHr]; intros pred HP V S NE; simpl.
  - exists (TN TE i TE), [], []. split; [destruct pred as [p|]; [rewrite (HP p eq_refl)|]; reflexivity|]. simpl. repeat split; auto; intros y [].
  - simpl in V, S, NE. apply sorted_app in S as (S1 & S2 & S3). apply sorted_cons in S2 as [S2 S4].
    assert (valid h (inorder l)) as Vl by (eapply valid_sub; [exact V|]; intros z Hz; apply in_or_app; auto).
    assert (valid h (inorder r)) as Vr by (eapply valid_sub; [exact V|]; intros z Hz; apply in_or_app; simpl; auto).
    assert (In x (inorder l ++ x :: inorder r)) as Ix by (apply in_or_app; simpl; auto).
    destruct (iless h key x) eqn:K.
    + destruct (IHl pred HP Vl S1) as (t' & l1 & l2 & E & E1 & E2 & A1 & A2); [intros z Hz; apply NE; apply in_or_app; auto|]. rewrite E.
      exists (TN t' x r), l1, (l2 ++ x :: inorder r). split; auto. split; [rewrite E1, <- app_assoc; reflexivity|]. simpl. split; [rewrite E2, <- app_assoc; reflexivity|].
      split; auto. intros z Hz. apply in_app_or in Hz as [Hz|[<-|Hz]]; auto. apply (before_more x z); auto. eapply valid_sub; [exact V|]. intros w [<-|[<-|[]]]; auto. apply in_or_app; simpl; auto.
    + assert (lessi h x key = true) as L.
      { destruct (lessi h x key) eqn:L; auto. assert (eqv x = true); [|rewrite NE in H by auto; discriminate]. apply eqv_iff; auto. eapply valid_sub; [exact V|]; intros w [<-|[]]; auto. }
      destruct (IHr (Some x)) as (t' & l1 & l2 & E & E1 & E2 & A1 & A2); auto; [intros p Ep; injection Ep as <-; auto|intros z Hz; apply NE; apply in_or_app; simpl; auto|]. rewrite E.
      exists (TN l x t'), (inorder l ++ x :: l1), l2. split; auto. split; [rewrite E1, <- app_assoc; reflexivity|]. simpl. split; [rewrite E2, <- app_assoc; reflexivity|].
      split; auto. intros z Hz. apply in_app_or in Hz as [Hz|[<-|Hz]]; auto. apply (before_less z x); auto; [|apply S3; simpl; auto].
      eapply valid_sub; [exact V|]. intros w [<-|[<-|[]]]; auto. apply in_or_app; simpl; auto.
Qed.
End Key.

(** ** Simulation *)
Record sim (m : mgr) (T : tables) : Prop := {
  sim_vt : t_vt T = m_vt m;
  sim_heap : t_heap T = m_heap m;
  sim_live : forall i, In i (m_live m) -> exists nd, at_ (m_heap m) i nd;
  sim_sorted : forall s, sorted (m_heap m) (inorder (t_sets T s));
  sim_in : forall s i, In i (inorder (t_sets T s)) <-> In i (m_live m) /\ exists nd, nth_error (m_heap m) i = Some nd /\ slot (m_vt m) nd = s }.
Lemma slot_same root (a b : node) : same_slot root a b = true <-> slot root a = slot root b.
Proof.
  unfold same_slot, slot, kind. rewrite andb_true_iff, Nat.eqb_eq. destruct (n_body a), (n_body b); split; intros H; try (destruct H; discriminate); try discriminate;
    try (destruct H as [H _]; rewrite H; reflexivity); injection H as H; auto.
Qed.
Lemma slot_eqb_iff a b : slot_eqb a b = true <-> a = b.
Proof. unfold slot_eqb. destruct a as [a1 a2], b as [b1 b2]. simpl. rewrite andb_true_iff, !Nat.eqb_eq. split; [intros [-> ->]; auto|intros H; injection H; auto]. Qed.
Lemma sim_valid m T s : sim m T -> valid (m_heap m) (inorder (t_sets T s)).
Proof. intros S i Hi. apply (sim_in _ _ S) in Hi as [Hi _]. apply (sim_live _ _ S); auto. Qed.
Lemma before_app (h l : heap) i j : before h i j -> before (h ++ l) i j.
Proof.
  intros (a & b & Ea & Eb & L). exists a, b. rewrite !nth_error_app1; auto; apply nth_error_Some; congruence.
Qed.
Lemma sorted_grow h l k : sorted h k -> sorted (h ++ l) k.
Proof.
  unfold sorted. intros S. induction S as [|x k S IH F]; constructor; auto. rewrite Forall_forall in *. intros y Hy. apply before_app. auto.
Qed.
Lemma sim_new t : sim (new_mgr t) (tnew t).
Proof. split; simpl; auto; [intros i []|intros s; constructor|intros s i; split; [intros []|intros [[] _]]]. Qed.
Lemma sim_get m T nd bal : sim m T -> good nd -> balances bal ->
  fst (tget bal T nd) = fst (GetUniqueNode m nd) /\ sim (snd (GetUniqueNode m nd)) (snd (tget bal T nd)).
Proof.
  intros S G B. pose proof (sim_valid m T (slot (m_vt m) nd) S) as V. pose proof (sim_sorted _ _ S (slot (m_vt m) nd)) as SO.
  unfold tget, GetUniqueNode. rewrite (sim_vt _ _ S), (sim_heap _ _ S). pose proof (find_spec (m_heap m) nd G _ SO V) as F.
  set (t := t_sets T (slot (m_vt m) nd)) in *. set (f := fun i => match nth_error (m_heap m) i with Some b => same_slot (m_vt m) nd b && equiv nd b | None => false end).
  assert (forall i, In i (m_live m) -> f i = true <-> In i (inorder t) /\ eqv (m_heap m) nd i = true) as FI.
  { intros i Hi. unfold f, eqv, t. destruct (sim_live _ _ S i Hi) as (b & Eb & _). rewrite Eb. rewrite (sim_in _ _ S), andb_true_iff, slot_same. split.
    - intros [E Q]. split; auto. split; auto. exists b. auto.
    - intros [[_ (b' & Eb' & E)] Q]. split; [congruence|auto]. }
  destruct (find f (m_live m)) as [j|] eqn:FJ.
  - apply find_some in FJ as [Hj Fj]. apply FI in Fj as [Ij Qj]; auto. destruct (set_find (m_heap m) nd t) as [i|].
    + destruct F as [Ii Qi]. simpl. split; auto. apply (eqv_one (m_heap m) nd G (inorder t)); auto.
    + rewrite (F j Ij) in Qj. discriminate.
  - destruct (set_find (m_heap m) nd t) as [i|].
    + exfalso. destruct F as [Ii Qi]. pose proof Ii as Ii'. apply (sim_in _ _ S) in Ii' as [Hi _]. pose proof (find_none _ _ FJ i Hi) as N. assert (f i = true) by (apply FI; auto). congruence.
    + simpl. split; auto. destruct (insert_spec (m_heap m) nd G (length (m_heap m)) t None) as (t' & l1 & l2 & E & E1 & E2 & A1 & A2); auto; [discriminate|]. rewrite E.
      assert (forall i, In i (m_live m) -> i < length (m_heap m)) as LT.
      { intros i Hi. destruct (sim_live _ _ S i Hi) as (b & Eb & _). apply nth_error_Some. congruence. }
      assert (nth_error (m_heap m ++ [nd]) (length (m_heap m)) = Some nd) as EN by (rewrite nth_error_app2, Nat.sub_diag by auto; reflexivity).
      split; simpl; auto.
      * intros i Hi. apply in_app_or in Hi as [Hi|[<-|[]]].
        -- destruct (sim_live _ _ S i Hi) as (b & Eb & Gb). exists b. split; auto. rewrite nth_error_app1; auto.
        -- exists nd. split; auto.
      * intros s. unfold put. destruct (slot_eqb s (slot (m_vt m) nd)) eqn:Q.
        -- rewrite B, E2. fold t in SO. rewrite E1 in SO. apply sorted_app in SO as (S1 & S2 & S3).
           assert (forall x, In x (inorder t) -> exists b, nth_error (m_heap m) x = Some b) as VX by (intros x Hx; destruct (V x Hx) as (b & Eb & _); eauto).
           rewrite E1 in VX. apply sorted_app. split; [apply sorted_grow; auto|]. split.
           ++ apply sorted_cons. split; [apply sorted_grow; auto|]. intros y Hy. destruct (VX y) as [b Eb]; [apply in_or_app; auto|]. specialize (A2 y Hy). unfold iless in A2. rewrite Eb in A2.
              exists nd, b. split; auto. split; auto. rewrite nth_error_app1; auto. apply nth_error_Some. congruence.
           ++ intros x y Hx [<-|Hy]; [|apply before_app; auto]. destruct (VX x) as [b Eb]; [apply in_or_app; auto|]. specialize (A1 x Hx). unfold lessi in A1. rewrite Eb in A1.
              exists b, nd. split; [rewrite nth_error_app1; auto; apply nth_error_Some; congruence|]. auto.
        -- apply sorted_grow. apply (sim_sorted _ _ S).
      * intros s i. unfold put. destruct (slot_eqb s (slot (m_vt m) nd)) eqn:Q.
        -- apply slot_eqb_iff in Q as ->. rewrite B, E2.
           assert (In i (l1 ++ length (m_heap m) :: l2) <-> In i (inorder t) \/ i = length (m_heap m)) as ->.
           { rewrite E1, !in_app_iff. simpl. intuition. }
           unfold t. rewrite (sim_in _ _ S), in_app_iff. simpl. split.
           ++ intros [[Hi (b & Eb & Q)]| ->]; [split; auto; exists b; split; auto; rewrite nth_error_app1; auto|]. split; auto. exists nd. auto.
           ++ intros [[Hi|[<-|[]]] (b & Eb & Q)]; auto. left. split; auto. exists b. rewrite nth_error_app1 in Eb; auto.
        -- rewrite (sim_in _ _ S), in_app_iff. simpl. split.
           ++ intros [Hi (b & Eb & Q')]. split; auto. exists b. rewrite nth_error_app1; auto.
           ++ intros [[Hi|[<-|[]]] (b & Eb & Q')]; [split; auto; exists b; rewrite nth_error_app1 in Eb; auto|]. exfalso. rewrite EN in Eb. injection Eb as <-.
              assert (slot_eqb s (slot (m_vt m) nd) = true) by (apply slot_eqb_iff; auto). congruence.
Qed.
Lemma inorder_of_list l : inorder (of_list l) = l.
Proof. induction l as [|x l IH]; simpl; [|rewrite IH]; reflexivity. Qed.
Lemma sorted_filter h f l : sorted h l -> sorted h (filter f l).
Proof.
  unfold sorted. intros S. induction S as [|x l S IH F]; simpl; [constructor|]. destruct (f x); auto. constructor; auto. rewrite Forall_forall in *. intros y Hy. apply filter_In in Hy as [Hy _]. auto.
Qed.
Lemma sim_keep m T keep bal : sim m T -> (forall s, balances (bal s)) -> sim (MkM (m_vt m) (m_heap m) (filter keep (m_live m))) (tkeep bal keep T).
Proof.
  intros S B. split; simpl.
  - apply (sim_vt _ _ S).
  - apply (sim_heap _ _ S).
  - intros i Hi. apply filter_In in Hi as [Hi _]. apply (sim_live _ _ S); auto.
  - intros s. rewrite B, inorder_of_list. apply sorted_filter. apply (sim_sorted _ _ S).
  - intros s i. rewrite B, inorder_of_list, !filter_In, (sim_in _ _ S). tauto.
Qed.
Definition good_requests (rs : list request) : Prop := forall nd i, In (RGet nd i) rs -> good nd.
(** Both ways: any run with search trees gives the answers of the list, and there is one *)
Theorem trace_sim m rs m' : trace m rs m' -> good_requests rs -> forall T, sim m T ->
  (exists T', ttrace T rs T') /\ forall T', ttrace T rs T' -> sim m' T'.
Proof.
  induction 1 as [m|m nd i m1 rs m2 E _ IH|m keep rs m2 _ IH]; intros G T S.
  - split; [exists T; constructor|]. intros T' H. inversion H; subst. exact S.
  - assert (good nd) as Gn by (eapply G; simpl; eauto). assert (good_requests rs) as Gr by (intros nd' i' H; eapply G; simpl; eauto). split.
    + destruct (sim_get m T nd (fun t => t) S Gn) as [A B]; [intros t; reflexivity|]. rewrite E in A, B. simpl in A, B.
      destruct (tget (fun t => t) T nd) as [i' T1] eqn:ET. simpl in A, B. subst i'. destruct (proj1 (IH Gr _ B)) as [T' H]. exists T'.
      apply (ttrace_get T nd i (fun t => t) T1); auto. intros t; reflexivity.
    + intros T' H. inversion H as [|? ? ? bal T1 ? ? Bb Et Ht|]; subst. destruct (sim_get m T nd bal S Gn Bb) as [A B]. rewrite E, Et in B. simpl in B. apply (IH Gr T1 B); auto.
  - assert (good_requests rs) as Gr by (intros nd' i' H; eapply G; simpl; eauto). split.
    + destruct (IH Gr _ (sim_keep m T keep (fun _ t => t) S (fun _ _ => eq_refl))) as [[T' H] _]. exists T'. apply (ttrace_keep T keep (fun _ t => t)); auto. intros s t. reflexivity.
    + intros T' H. inversion H as [| |? ? bal ? ? Bb Ht]; subst. eapply (IH Gr); [apply sim_keep|]; eauto.
Qed.
(** and no other answer is possible *)
Theorem answer_sim m T nd bal : sim m T -> good nd -> balances bal -> fst (tget bal T nd) = fst (GetUniqueNode m nd).
Proof. intros S G B. apply sim_get; auto. Qed.


End Set_.

(** ** Operations are sequences of requests *)
Section Ops.
Context {P : pops} (Q : node P -> Prop).
Notation heap := (heap P). Notation mgr := (mgr P). Notation node := (node P).
(** [Q]: what is known of the nodes requested *)
Definition traced (m m' : mgr) : Prop := exists rs, trace m rs m' /\ forall nd i, In (RGet nd i) rs -> Q nd.
Lemma traced_refl m : traced m m.
Proof. exists []. split; [constructor|intros nd i []]. Qed.
Lemma trace_app (m : mgr) rs1 m1 rs2 m2 : trace m rs1 m1 -> trace m1 rs2 m2 -> trace m (rs1 ++ rs2) m2.
Proof. induction 1; intros H2; simpl; auto; econstructor; eauto. Qed.
Lemma traced_trans m m1 m2 : traced m m1 -> traced m1 m2 -> traced m m2.
Proof.
  intros (r1 & H1 & Q1) (r2 & H2 & Q2). exists (r1 ++ r2). split; [eapply trace_app; eauto|]. intros nd i Hi. apply in_app_or in Hi as [Hi|Hi]; eauto.
Qed.
Section Prog.
Context (okt : N -> P -> P -> Prop) (okp : P -> Prop) (HQ : forall nd, okn okt okp nd -> Q nd).
Notation tprog := (prog okt okp).
Lemma prog_traced {X} (f : mgr -> res (X * mgr)) : tprog f -> forall m x m1, f m = Ok (x, m1) -> traced m m1.
Proof.
  induction 1; intros m x0 m1 E.
  - injection E as <- <-. apply traced_refl.
  - exfalso. eapply H; eauto.
  - bk E as [y m'] E1. eapply traced_trans; eauto.
  - bk E as y' E1. eauto.
  - eauto.
  - injection E as E. exists [RGet nd x0]. split; [econstructor; [exact E|constructor]|]. intros nd' i [Hi|[]]. injection Hi as <- <-. apply HQ; auto.
  - rewrite <- H in E. eauto.
Qed.
Context (okt1 : forall fl, okt fl pone pone) (okp0 : okp pzero) (okp1 : okp pone).
(** the parameters handed to the operation *)
Definition op_ok (o : @op P) : Prop :=
  match o with
  | OTop _ fl pt pf => okt fl pt pf
  | ODec _ _ ws _ => Forall okp ws
  | OLoad hs _ _ _ fl => params_good okt okp fl hs
  | OMul _ _ _ => (forall fl pt pf, okt fl pt pf) /\ forall p, okp p
  | _ => True
  end.
Lemma traced_lit l f m x m1 : GetPsddLiteralNode m l f = Ok (x, m1) -> traced m m1.
Proof. intros E. refine (prog_traced (fun m => GetPsddLiteralNode m l f) _ m x m1 E). apply prog_literal. Qed.
Lemma traced_top v f a b m x m1 : okt f a b -> GetPsddTopNode m v f a b = Ok (x, m1) -> traced m m1.
Proof. intros O E. refine (prog_traced (fun m => GetPsddTopNode m v f a b) _ m x m1 E). apply prog_top. auto. Qed.
Lemma traced_conf ps ss ws f m x m1 : Forall okp ws -> GetConformedPsddDecisionNode m ps ss ws f = Ok (x, m1) -> traced m m1.
Proof. intros O E. refine (prog_traced (fun m => GetConformedPsddDecisionNode m ps ss ws f) _ m x m1 E). apply prog_Conformed; auto. Qed.
Section Mul.
Context (okt_all : forall fl pt pf, okt fl pt pf) (okp_all : forall p, okp p).
Lemma traced_mul_fold m0 (rec : nat -> nat -> mgr * mcache -> res (mres * (mgr * mcache))) :
  (forall a b s r s', traced m0 (fst s) -> rec a b s = Ok (r, s') -> traced m0 (fst s')) ->
  forall L acc part s acc' part' s', traced m0 (fst s) -> foldM (mul_pair rec) L (acc, part, s) = Ok (acc', part', s') -> traced m0 (fst s').
Proof.
  intros HR. induction L as [|[a b] L IH]; intros acc part s acc' part' s' W E; cbn [foldM] in E.
  - injection E as <- <- <-. auto.
  - bk E as [[acc1 part1] s1] E1. unfold mul_pair in E1.
    bk E1 as [pr s2] E2. apply HR in E2; auto.
    destruct (fst pr) as [pi|].
    + bk E1 as [sr s3] E3. apply HR in E3; auto.
      assert (s1 = s3) as -> by (destruct (fst sr); congruence). eauto.
    + injection E1 as <- <- <-. eauto.
Qed.
Ltac done_mul H := unfold cache_update in H; repeat (apply bind_ok in H as (? & ? & H)); injection H as <- <-; simpl; auto.
Lemma traced_mul_cache m0 fl fuel : forall a b s r s', traced m0 (fst s) -> multiply_with_cache fuel fl a b s = Ok (r, s') -> traced m0 (fst s').
Proof.
  assert (forall l f m x m1, GetPsddLiteralNode m l f = Ok (x, m1) -> traced m0 m -> traced m0 m1) as LIT by (intros l f m x m1 E T; eapply traced_trans; [exact T|eapply traced_lit; exact E]).
  assert (forall v f a b m x m1, GetPsddTopNode m v f a b = Ok (x, m1) -> traced m0 m -> traced m0 m1) as TOP by (intros v f a b m x m1 E T; eapply traced_trans; [exact T|eapply traced_top; [|exact E]; auto]).
  assert (forall ps ss ws f m x m1, GetConformedPsddDecisionNode m ps ss ws f = Ok (x, m1) -> traced m0 m -> traced m0 m1) as CONF.
  { intros ps ss ws f m x m1 E T; eapply traced_trans; [exact T|eapply traced_conf; [|exact E]]. apply Forall_forall; auto. }
  induction fuel as [|f IH]; intros a b [m c] r s' W E; cbn [multiply_with_cache] in E; [discriminate|]. simpl in W.
  bk E as pos _.
  destruct (alookup key_eqb (pos, a, b) c) as [x|]; [injection E as <- <-; auto|].
  bk E as na _. bk E as nb _. bk E as _ _.
  destruct (n_body na) as [la|va ta fa|ea] eqn:Ea; destruct (n_body nb) as [lb|vb tb fb|eb] eqn:Eb; try discriminate.
  - bk E as _ _. destruct (Z.eqb la lb).
    + bk E as [i m1] E1. apply LIT in E1; auto. done_mul E.
    + done_mul E.
  - bk E as _ _. bk E as [i m1] E1. apply LIT in E1; auto. done_mul E.
  - bk E as _ _. bk E as [i m1] E1. apply LIT in E1; auto. done_mul E.
  - bk E as _ _. bk E as [i m1] E1. apply TOP in E1; auto.
    bk E as nd _. destruct (n_body nd); try discriminate. done_mul E.
  - bk E as [[acc part] [m1 c1]] E1. apply (traced_mul_fold _ _ IH) in E1; auto. simpl in E1.
    destruct acc as [|e acc].
    + done_mul E.
    + bk E as _ _. bk E as [i m2] E2. apply CONF in E2; auto. done_mul E.
Qed.
End Mul.
Lemma step_traced (m : mgr) o m' : op_ok o -> step m o = Ok m' -> traced m m'.
Proof.
  intros O E. destruct o as [v f pt pf|l f|ps ss ws f|p f|tg i f|hs ud tg r f|a b f|used|flags]; cbn [step op_ok] in E, O.
  - bk E as [i m1] E1. injection E as <-. eapply traced_top; eauto.
  - bk E as [i m1] E1. injection E as <-. eapply traced_lit; eauto.
  - bk E as [i m1] E1. injection E as <-. eapply traced_conf; eauto.
  - bk E as [i m1] E1. injection E as <-. refine (prog_traced (GetTrueNode p f) _ m _ m1 E1). apply prog_GetTrueNode; auto.
  - bk E as [i' m1] E1. injection E as <-. refine (prog_traced (NormalizePsddNode tg i f) _ m _ m1 E1). apply prog_Normalize; auto.
  - bk E as [[i' u'] m1] E1. injection E as <-. refine (prog_traced (LoadPsddNode hs ud tg r f) _ m _ m1 E1). apply prog_Load; auto.
  - bk E as [r m1] E1. injection E as <-. unfold Multiply in E1. bk E1 as [r1 s1] E2. injection E1 as <- <-. destruct O as [O1 O2].
    eapply (traced_mul_cache O1 O2 m) in E2; auto. apply traced_refl.
  - unfold DeleteUnusedPsddNodes in E. bk E as c Ec. injection E as <-. eexists [RKeep _]. split; [apply trace_keep; constructor|]. intros nd i [Hi|[]]. discriminate.
  - injection E as <-. eexists [RKeep _]. split; [apply trace_keep; constructor|]. intros nd i [Hi|[]]. discriminate.
Qed.
Lemma runs_traced ops : Forall op_ok ops -> forall m m' : mgr, runs m ops = Ok m' -> traced m m'.
Proof.
  unfold runs. induction 1 as [|o ops O _ IH]; intros m m' E; cbn [foldM] in E; [injection E as <-; apply traced_refl|].
  bk E as m1 E1. eapply traced_trans; [eapply step_traced; eauto|]. auto.
Qed.
End Prog.
End Ops.

(** ** Histories *)
Section Histories.
Context {P : pops}.
Notation mgr := (mgr P). Notation node := (node P).
(** The sets hold the nodes the list holds, each in its set, and one more request is answered alike *)
Definition holds (Q : node -> Prop) (m : mgr) (T : tables) : Prop :=
  t_vt T = m_vt m /\ t_heap T = m_heap m /\
  (forall s i, In i (inorder (t_sets T s)) <-> In i (m_live m) /\ exists nd, nth_error (m_heap m) i = Some nd /\ slot (m_vt m) nd = s) /\
  forall nd bal, Q nd -> balances bal -> fst (tget bal T nd) = fst (GetUniqueNode m nd).
Lemma sim_holds pg (HO : pord P pg) (m : mgr) T : sim pg m T -> holds (node_good pg) m T.
Proof.
  intros S. split; [apply (sim_vt _ _ _ S)|]. split; [apply (sim_heap _ _ _ S)|]. split; [apply (sim_in _ _ _ S)|]. intros nd bal G B. apply (answer_sim pg HO); auto.
Qed.
Theorem history_holds pg (HO : pord P pg) t (m : mgr) rs : trace (new_mgr t) rs m -> good_requests pg rs ->
  (exists T, ttrace (tnew t) rs T) /\ forall T, ttrace (tnew t) rs T -> holds (node_good pg) m T.
Proof.
  intros H G. destruct (trace_sim pg HO _ _ _ H G _ (sim_new pg t)) as [A B]. split; auto. intros T HT. apply sim_holds; auto.
Qed.
Theorem runs_trace t ops (m : mgr) : runs (new_mgr t) ops = Ok m -> exists rs, trace (new_mgr t) rs m.
Proof.
  intros E. destruct (runs_traced (fun _ => True) (fun _ _ _ => True) (fun _ => True) (fun _ _ => I) (fun _ => I) I I ops) with (m := new_mgr (P := P) t) (m' := m) as (rs & H & _); eauto.
  apply Forall_forall. intros o _. destruct o; simpl; auto; [apply Forall_forall; auto|]. intros i nd _. destruct (n_body nd); auto. apply Forall_forall; auto.
Qed.
Theorem runs_holds_exact val t ops (m : mgr) : pexact P val -> runs (new_mgr t) ops = Ok m ->
  exists rs, trace (new_mgr t) rs m /\ (exists T, ttrace (tnew t) rs T) /\ forall T, ttrace (tnew t) rs T -> holds (fun _ => True) m T.
Proof.
  intros HP E. destruct (runs_trace _ _ _ E) as [rs H]. exists rs. split; auto.
  assert (forall nd : node, node_good (fun _ => True) nd) as AG by (intros nd; unfold node_good; destruct (n_body nd); auto; apply Forall_forall; auto).
  destruct (history_holds _ (pord_exact _ _ HP) t m rs H) as [A B]; [intros nd i _; auto|]. split; auto. intros T HT. destruct (B T HT) as (B1 & B2 & B3 & B4).
  repeat (split; auto).
Qed.
End Histories.
(** Parameters of the code that can be compared: no NaN, and a hash that was not cut off *)
Definition code_op (o : @op Lcode) : Prop :=
  match o with
  | OTop _ _ pt _ => cgood pt
  | ODec _ _ ws _ => Forall cgood ws
  | OLoad hs _ _ _ _ => forall i nd, nth_error hs i = Some nd -> node_good cgood nd
  | OMul _ _ _ => False
  | _ => True
  end.
Theorem runs_holds_code t ops (m : mgr Lcode) : cgood pone -> cgood pzero -> Forall code_op ops -> runs (new_mgr t) ops = Ok m ->
  exists rs, trace (new_mgr t) rs m /\ (exists T, ttrace (tnew t) rs T) /\ forall T, ttrace (tnew t) rs T -> holds (node_good cgood) m T.
Proof.
  intros G1 G0 F E. destruct (runs_traced (node_good cgood) (fun _ pt _ => cgood pt) cgood) with (ops := ops) (m := new_mgr (P := Lcode) t) (m' := m) as (rs & H & G); auto.
  - intros nd O. unfold okn in O. unfold node_good. destruct (n_body nd); auto. apply O.
  - eapply Forall_impl; [|exact F]. intros o O. destruct o; simpl in *; auto; contradiction.
  - exists rs. split; auto. apply history_holds; auto. apply pord_code.
Qed.

(** ** NaN *)
Definition rotate (t : tree) : tree := match t with TN l x (TN b y c) => TN (TN l x b) y c | t => t end.
Lemma rotate_balances : balances rotate.
Proof. intros [|l x [|b y c]]; simpl; auto. rewrite <- app_assoc. reflexivity. Qed.
Definition nanp : Lcode := mkp NaN.
(** parameter one; see [onep_one] *)
Definition onep : Lcode := MkParam (Fin 0%R) 0%Z.
Lemma onep_one : onep = pone.
Proof.
  change (MkParam (Fin 0%R) 0%Z = p_of_decimal (Fin 1%R)). unfold p_of_decimal, mkp. assert (xlog (Fin 1%R) = Fin 0%R) as ->.
  { unfold xlog. destruct (Rlt_dec 0 1); [rewrite ln_1; reflexivity|lra]. }
  f_equal. unfold cast_x86, xscale. rewrite Rmult_0_l. destruct (Rlt_dec 0 (IZR (2 ^ 63))) as [H|H]; [|exfalso; apply H; apply (IZR_lt 0); reflexivity].
  destruct (Rle_dec 0 (IZR (- 2 ^ 63 - 1))) as [K|K]; [exfalso; apply (le_IZR 0) in K; apply K; reflexivity|].
  unfold trunc. destruct (Rlt_dec 0 0); [lra|]. replace (Int_part 0) with 0%Z; [reflexivity|]. unfold Int_part. rewrite <- (up_tech 0 0); [reflexivity| |]; simpl; lra.
Qed.
Definition nan_vt : vtree := VNode (Leaf 1) (Leaf 2).
(** what learning without smoothing makes of a node without records, and two other nodes *)
Definition nan_ops : list (@op Lcode) :=
  [OLit 1 0; OLit (-1) 0; OLit 2 0; OLit (-2) 0; ODec [0; 1] [2; 2] [nanp; nanp] 0; ODec [0; 1] [2; 3] [pzero; onep] 0].
Definition nan_c : node Lcode := MkN [] 0 (BDec [MkE 0 2 onep; MkE 1 3 pzero]).
Definition nan_nodes : list (node Lcode) :=
  [MkN [false] 0 (BLit 1); MkN [false] 0 (BLit (-1)); MkN [true] 0 (BLit 2); MkN [true] 0 (BLit (-2));
   MkN [] 0 (BDec [MkE 0 2 nanp; MkE 1 2 nanp]); MkN [] 0 (BDec [MkE 0 2 pzero; MkE 1 3 onep])].
Definition nan_m : mgr Lcode := MkM nan_vt nan_nodes [0; 1; 2; 3; 4; 5].
Definition nan_rs : list request := map (fun i => RGet (nth i nan_nodes nan_c) i) [0; 1; 2; 3; 4; 5].
Lemma nan_runs : runs (new_mgr nan_vt) nan_ops = Ok nan_m.
Proof. reflexivity. Qed.
Lemma nan_trace : trace (new_mgr nan_vt) nan_rs nan_m.
Proof. unfold nan_rs. cbn [map nth nan_nodes]. repeat (eapply trace_get; [reflexivity|]). apply trace_nil. Qed.
Fixpoint tgets (bal : tree -> tree) (T : tables) (rs : list (@request Lcode)) : tables :=
  match rs with
  | RGet nd _ :: rs => tgets bal (snd (tget bal T nd)) rs
  | _ => T
  end.
Definition nan_T (bal : tree -> tree) : tables := tgets bal (tnew nan_vt) nan_rs.
Lemma nan_ttrace bal : bal = (fun t => t) \/ bal = rotate -> ttrace (tnew nan_vt) nan_rs (nan_T bal).
Proof.
  intros B. assert (balances bal) as BB by (destruct B as [-> | ->]; [intros t; reflexivity|apply rotate_balances]).
  unfold nan_T, nan_rs. cbn [tgets map nth nan_nodes].
  destruct B as [-> | ->]; repeat (eapply ttrace_get; [exact BB|reflexivity|]); apply ttrace_nil.
Qed.
Lemma nan_answers : forall bal, fst (tget bal (nan_T (fun t => t)) nan_c) = 4 /\ fst (tget bal (nan_T rotate) nan_c) = 6.
Proof. intros bal. split; reflexivity. Qed.
Lemma nan_order : let a := nth 4 (m_heap nan_m) nan_c in let b := nth 5 (m_heap nan_m) nan_c in
  node_less a b = true /\ node_less b nan_c = true /\ node_less a nan_c = false /\ node_less nan_c a = false.
Proof. repeat split; reflexivity. Qed.
