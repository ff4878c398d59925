(** Where the vtrees made for a network have an inner vertex on the left, no factor reaches from the left to the right.  The proofs follow those of the
    right-linear layout (VtreeGenProofs.v, JointreeProofs.v, HyperProofs.v). *)
From Verif Require Import Base Vtree VtreeProofs PgmLayout VtreeGen VtreeGenProofs JointreeProofs HyperProofs MinFillProofs.

(** No variable of [S] on one of the two sides, wherever the left child is not a leaf *)
Definition kept_together (S : list N) (t : vtree) : Prop := forall a b r, subvtree (VNode (VNode a b) r) t ->
  (forall v, In v (leaves (VNode a b)) -> ~ In v S) \/ (forall v, In v (leaves r) -> ~ In v S).
Lemma ki_node S l r : kept_together S l -> kept_together S r -> (forall v, l <> Leaf v) ->
  ((forall v, In v (leaves l) -> ~ In v S) \/ (forall v, In v (leaves r) -> ~ In v S)) -> kept_together S (VNode l r).
Proof. intros L R N C a b r' H. inversion H; subst; auto. Qed.
Lemma kt_leaf S x t : kept_together S t -> kept_together S (VNode (Leaf x) t).
Proof. intros K a b r H. inversion H; subst; [|apply K; auto]. match goal with H1 : subvtree _ (Leaf _) |- _ => inversion H1 end. Qed.
Lemma kt_one S x : kept_together S (Leaf x).
Proof. intros a b r H. inversion H. Qed.
Lemma sub_leaves s t v : subvtree s t -> In v (leaves s) -> In v (leaves t).
Proof. induction 1; simpl; intros H'; auto; apply in_or_app; auto. Qed.
Lemma kt_none S t : (forall v, In v (leaves t) -> ~ In v S) -> kept_together S t.
Proof. intros H a b r Hs. left. intros v Hv. apply H. apply (sub_leaves _ _ v Hs). simpl. simpl in Hv. apply in_or_app. auto. Qed.
Lemma kt_left S l r : (forall v, In v (leaves r) -> ~ In v S) -> kept_together S l -> kept_together S (VNode l r).
Proof. intros H K. destruct l as [x|l1 l2]; [apply kt_leaf, kt_none; auto|]. apply ki_node; auto; [apply kt_none; auto|discriminate]. Qed.
Lemma kt_right S l r : (forall v, In v (leaves l) -> ~ In v S) -> kept_together S r -> kept_together S (VNode l r).
Proof. intros H K. destruct l as [x|l1 l2]; [apply kt_leaf; auto|]. apply ki_node; auto; [apply kt_none; auto|discriminate]. Qed.
Lemma kt_ext S S' t : (forall v, In v (leaves t) -> (In v S <-> In v S')) -> kept_together S t -> kept_together S' t.
Proof.
  intros E K a b r H. destruct (K a b r H) as [C|C]; [left|right]; intros v Hv HS; apply (C v Hv), E; auto; apply (sub_leaves _ _ v H); simpl; simpl in Hv; apply in_or_app; auto.
Qed.
Lemma kt_chain S vs : forall t, kept_together S t -> kept_together S (chain vs t).
Proof. induction vs as [|x vs IH]; intros t H; simpl; auto. apply IH, kt_leaf, H. Qed.

(** ** Min-fill *)
Theorem minfill_together begin ordering n scopes t : (forall p g, g <> [] -> In (begin p g) (keys g)) -> Permutation ordering (range n) -> n <> 0 ->
  Forall (fun S => incl S (range n)) scopes -> MinFillVtree begin ordering n scopes = Ok t -> Forall (fun S => kept_together S t) scopes.
Proof.
  intros B PO N0 F RUN. apply Forall_forall. intros S HS a b r H.
  destruct (minfill_splits scopes begin ordering n B PO N0 F t RUN _ _ H) as [[_ (v & E & _)]|[_ D]]; [discriminate|].
  destruct (existsb (fun v => NmemB v S) (leaves (VNode a b))) eqn:EX.
  - right. apply existsb_exists in EX as (u & Hu & Su). apply NmemB_In in Su. intros w Hw Sw. apply (D S u w HS Su Sw Hu Hw).
  - left. intros v Hv Sv. assert (existsb (fun v => NmemB v S) (leaves (VNode a b)) = true) as Y; [|congruence]. apply existsb_exists. exists v. split; auto. apply NmemB_In. auto.
Qed.

(** ** Join tree *)
Definition okt (S : list N) (o : option vtree) : Prop := match o with Some t => kept_together S t | None => True end.
Lemma okt_none S o : (forall v, In v (oleaves o) -> ~ In v S) -> okt S o.
Proof. destruct o; simpl; auto. apply kt_none. Qed.
Lemma okt_keep S l : forall rc, okt S rc -> Forall (fun t => forall v, In v (leaves t) -> ~ In v S) l -> okt S (fold_left on_top l rc).
Proof.
  induction l as [|t l IH]; intros rc H F; simpl; auto. apply Forall_cons_iff in F as [F1 F]. apply IH; auto.
  destruct rc; simpl; [apply kt_right; auto|apply kt_none; auto].
Qed.
Lemma okt_one S l1 t l2 rc : kept_together S t -> Forall (fun t => forall v, In v (leaves t) -> ~ In v S) l1 ->
  Forall (fun t => forall v, In v (leaves t) -> ~ In v S) l2 -> (forall v, In v (oleaves rc) -> ~ In v S) ->
  okt S (fold_left on_top (l1 ++ t :: l2) rc).
Proof.
  intros R F1 F2 H. rewrite fold_left_app. simpl. apply okt_keep; auto.
  assert (forall v, In v (oleaves (fold_left on_top l1 rc)) -> ~ In v S) as H'.
  { intros v Hv. apply (Permutation_in v (on_top_leaves l1 rc)) in Hv. apply in_app_or in Hv as [Hv|Hv]; auto.
    apply in_flat_map in Hv as (t' & I & Hv). rewrite Forall_forall in F1. apply (F1 t'); auto. }
  destruct (fold_left on_top l1 rc) as [r|]; simpl in *; auto. apply kt_left; auto.
Qed.
Lemma okt_leaves S l : forall rc, okt S rc -> okt S (fold_left on_top (map Leaf l) rc).
Proof. induction l as [|v l IH]; intros rc H; simpl; auto. apply IH. destruct rc; simpl in *; [apply kt_leaf; exact H|apply kt_one]. Qed.
Theorem jt_together d : rgood d -> forall pb, (forall v, In v pb -> occurs v d -> In v (top_bag d)) ->
  NoDup (oleaves (jt_vertex pb d)) /\ (forall v, In v (oleaves (jt_vertex pb d)) <-> occurs v d /\ ~ In v pb) /\
  forall S, (exists p bag, bag_at d p = Some bag /\ incl S bag) -> okt S (jt_vertex pb d).
Proof.
  induction d as [bag ch IH] using dtree_rect'. intros G pb A. inversion G as [bag' ch' ND GC TC SEP]; subst bag' ch'. simpl in A.
  assert (forall c, In c ch -> NoDup (oleaves (jt_vertex bag c)) /\ (forall v, In v (oleaves (jt_vertex bag c)) <-> occurs v c /\ ~ In v bag) /\
    forall S, (exists p b, bag_at c p = Some b /\ incl S b) -> okt S (jt_vertex bag c)) as HC.
  { intros c Hc. rewrite Forall_forall in IH, GC. apply IH; auto. }
  clear IH. rewrite jt_eq.
  set (rc := fold_left on_top (opt_list (map (jt_vertex bag) ch)) None).
  assert (Permutation (oleaves rc) (flat_map (fun c => oleaves (jt_vertex bag c)) ch)) as PR.
  { unfold rc. rewrite on_top_leaves, opt_list_leaves. simpl. rewrite app_nil_r. reflexivity. }
  assert (forall v, In v (oleaves rc) <-> (exists c, In c ch /\ occurs v c) /\ ~ In v bag) as IR.
  { intros v. split.
    - intros H. apply (Permutation_in v PR), in_flat_map in H as (c & Hc & H). apply HC in H as [H1 H2]; auto. split; eauto.
    - intros [(c & Hc & H) NB]. apply (Permutation_in v (Permutation_sym PR)), in_flat_map. exists c. split; auto. apply HC; auto. }
  assert (NoDup (oleaves rc)) as NR.
  { apply (Permutation_NoDup (Permutation_sym PR)). apply nodup_flat_map.
    - apply Forall_forall. intros c Hc. apply HC; auto.
    - intros x a y b z v E Ha Hb.
      assert (In a ch) as Ia by (rewrite E; apply in_or_app; simpl; auto).
      assert (In b ch) as Ib by (rewrite E; apply in_or_app; right; right; apply in_or_app; simpl; auto).
      apply HC in Ha as [H1 H2]; auto. apply HC in Hb as [H3 _]; auto. apply H2. apply (SEP x a y b z v); auto. }
  set (add := filter (fun v => negb (NmemB v pb)) bag).
  assert (forall v, In v add <-> In v bag /\ ~ In v pb) as IA.
  { intros v. unfold add. rewrite filter_In, negb_true_iff. split; intros [H1 H2]; split; auto; apply NmemB_false; auto. }
  assert (flat_map leaves (map Leaf add) = add) as EA.
  { generalize add. intros l. induction l as [|x l IHl]; simpl; auto. rewrite IHl. auto. }
  pose proof (on_top_leaves (map Leaf add) rc) as PF. rewrite EA in PF. split; [|split].
  - apply (Permutation_NoDup (Permutation_sym PF)). apply NoDup_app_intro; auto.
    + apply NoDup_filter. exact ND.
    + intros v H1 H2. apply IA in H1 as [H1 _]. apply IR in H2 as [_ H2]. auto.
  - intros v. rewrite occurs_DT. split.
    + intros H. apply (Permutation_in v PF) in H. apply in_app_or in H as [H|H].
      * apply IA in H. tauto.
      * apply IR in H as [H NB]. split; auto. intros HP. apply NB. apply A; auto. apply occurs_DT. auto.
    + intros [H NP]. apply (Permutation_in v (Permutation_sym PF)), in_or_app. rewrite IA, IR.
      destruct (in_dec N.eq_dec v bag) as [I|NI]; auto. destruct H as [H|H]; auto.
  - intros S [p (b & E & I)]. apply okt_leaves. destruct p as [|i p].
    + simpl in E. injection E as <-. apply okt_none. intros v Hv HS. apply IR in Hv as [_ Hv]. auto.
    + simpl in E. destruct (nth_error ch i) as [c|] eqn:Ei; [|discriminate].
      assert (In c ch) as Hc by (eapply nth_error_In; eauto).
      destruct (HC c Hc) as (_ & IC & RC). specialize (RC S (ex_intro _ p (ex_intro _ b (conj E I)))).
      destruct (nth_error_split ch i Ei) as (c1 & c2 & E2 & _).
      assert (forall v, In v S -> occurs v c) as OS. { intros v Hv. exists p, b. auto. }
      assert (Forall (fun t => forall v, In v (leaves t) -> ~ In v S) (opt_list (map (jt_vertex bag) c1))) as F1.
      { apply Forall_forall. intros t Ht v Hv HS. apply opt_list_In in Ht as (c' & I' & Et).
        assert (In c' ch) as Hc' by (rewrite E2; apply in_or_app; auto).
        assert (In v (oleaves (jt_vertex bag c'))) as H by (rewrite Et; exact Hv). apply HC in H as [H1 H2]; auto. apply H2.
        apply in_split in I' as (x & y & ->). rewrite <- app_assoc in E2. simpl in E2. apply (SEP x c' y c c2 v); auto. }
      assert (Forall (fun t => forall v, In v (leaves t) -> ~ In v S) (opt_list (map (jt_vertex bag) c2))) as F2.
      { apply Forall_forall. intros t Ht v Hv HS. apply opt_list_In in Ht as (c' & I' & Et).
        assert (In c' ch) as Hc' by (rewrite E2; apply in_or_app; simpl; auto).
        assert (In v (oleaves (jt_vertex bag c'))) as H by (rewrite Et; exact Hv). apply HC in H as [H1 H2]; auto. apply H2.
        apply in_split in I' as (x & y & ->). apply (SEP c1 c x c' y v); auto. }
      unfold rc. rewrite E2, map_app, opt_list_app. simpl. destruct (jt_vertex bag c) as [t|]; simpl.
      * apply okt_one; auto.
      * apply okt_keep; [simpl; auto|]. apply Forall_app. auto.
Qed.
Theorem jointree_together n scopes d : tree_decomposition n scopes d -> n <> 0 ->
  exists t, JointreeVtree d = Ok t /\ Permutation (leaves t) (range n) /\ Forall (fun S => kept_together S t) scopes.
Proof.
  intros T N0. pose proof (td_rgood d (td_bags _ _ _ T) (td_connected _ _ _ T)) as G.
  destruct (jt_together d G []) as (ND & IL & RL); [intros v []|].
  assert (forall v, In v (oleaves (jt_vertex [] d)) <-> In v (range n)) as IV.
  { intros v. rewrite IL, (td_vertices _ _ _ T). simpl. unfold occurs. tauto. }
  unfold JointreeVtree. destruct (jt_vertex [] d) as [t|].
  - exists t. split; auto. split.
    + apply NoDup_Permutation; auto. apply range_nodup.
    + eapply Forall_impl; [|apply (td_edges _ _ _ T)]. intros S HS. apply (RL S HS).
  - exfalso. simpl in IV. apply (IV 1%N). apply range_In. lia.
Qed.

(** ** Hypergraph partitioning *)
Definition kept_for (scopes : list (list N)) (t : vtree) : Prop :=
  Permutation (leaves t) (distinct (concat scopes)) /\ Forall (fun S => kept_together S t) scopes.
Lemma kept_In scopes t v : kept_for scopes t -> In v (leaves t) <-> In v (concat scopes).
Proof.
  intros [P _]. rewrite <- (In_distinct (concat scopes)). split; apply Permutation_in; [exact P|exact (Permutation_sym P)].
Qed.

Lemma chain_kt S vs v : kept_together S (chain vs (Leaf v)).
Proof. apply kt_chain. apply kt_one. Qed.
Lemma base_together ord scopes : (forall l, Permutation (ord l) l) -> concat scopes <> [] ->
  (exists t, BaseCase ord scopes = Ok (Some t) /\ kept_for scopes t) \/ (BaseCase ord scopes = Ok None /\ 3 < length scopes).
Proof.
  intros O N0. unfold BaseCase. pose proof (O (distinct (concat scopes))) as P.
  destruct (ord (distinct (concat scopes))) as [|v [|w vs]] eqn:E.
  - exfalso. apply Permutation_nil in P. destruct (concat scopes) as [|x l]; auto.
    assert (In x (distinct (x :: l))) as H by (apply In_distinct; simpl; auto). rewrite P in H. destruct H.
  - left. exists (Leaf v). split; auto. split; auto. apply Forall_forall. intros S _. apply kt_one.
  - destruct (Nat.leb_spec (length scopes) 3) as [L|L]; auto. left. exists (chain (w :: vs) (Leaf v)). split; auto. split.
    + rewrite chain_leaves. rewrite Permutation_app_comm. exact P.
    + apply Forall_forall. intros S _. apply chain_kt.
Qed.
Definition side_kt (fs : list (list N)) (o : option vtree) : Prop :=
  match o with None => fs = [] | Some t => kept_for fs t end.
Lemma put_together_kt scopes lf rf ctx l r : parted scopes lf rf ctx -> concat scopes <> [] -> side_kt lf l -> side_kt rf r ->
  exists t, put_together l r ctx = Ok t /\ kept_for scopes t.
Proof.
  intros PT N0 SL SR.
  assert (forall fs o v, side_kt fs o -> In v (match o with Some t => leaves t | None => [] end) <-> In v (concat fs)) as LV.
  { intros fs [t|] v H; [apply kept_In; auto|]. simpl in H. subst. simpl. tauto. }
  assert (forall fs o, side_kt fs o -> NoDup (match o with Some t => leaves t | None => [] end)) as LN.
  { intros fs [t|] H; [|constructor]. destruct H as [P _]. apply (Permutation_NoDup (Permutation_sym P)), NoDup_distinct. }
  set (lv := fun o : option vtree => match o with Some t => leaves t | None => [] end) in *.
  assert (NoDup (ctx ++ lv l ++ lv r)) as ND.
  { apply NoDup_app_intro; [apply (pt_ctx _ _ _ _ PT)| |].
    - apply NoDup_app_intro; [eapply LN; eauto|eapply LN; eauto|]. intros v H1 H2. apply (LV _ _ v SL) in H1. apply (LV _ _ v SR) in H2.
      apply (pt_left _ _ _ _ PT) in H1. tauto.
    - intros v H1 H2. apply in_app_or in H2 as [H2|H2].
      + apply (LV _ _ v SL) in H2. apply (pt_left _ _ _ _ PT) in H2. tauto.
      + apply (LV _ _ v SR) in H2. apply (pt_right _ _ _ _ PT) in H2. tauto. }
  assert (forall v, In v (ctx ++ lv l ++ lv r) <-> In v (concat scopes)) as IV.
  { intros v. rewrite !in_app_iff, (pt_vars _ _ _ _ PT). unfold lv. rewrite (LV _ _ v SL), (LV _ _ v SR). tauto. }
  assert (Permutation (ctx ++ lv l ++ lv r) (distinct (concat scopes))) as PV.
  { apply NoDup_Permutation; auto; [apply NoDup_distinct|]. intros v. rewrite In_distinct. auto. }
  assert (forall S fs t, In S scopes -> kept_for fs t -> In (filter (fun v => negb (NmemB v ctx)) S) fs -> (forall v, In v (concat fs) -> ~ In v ctx) -> kept_together S t) as RS.
  { intros S fs t HS G IF NC. apply (kt_ext (filter (fun v => negb (NmemB v ctx)) S)).
    - intros v Hv. apply (kept_In fs t v G), NC in Hv. rewrite filter_In, negb_true_iff, NmemB_false. tauto.
    - destruct G as [_ F]. rewrite Forall_forall in F. auto. }
  assert (forall S fs t, In S scopes -> kept_for fs t -> (forall v, In v (concat fs) -> ~ In v (filter (fun v => negb (NmemB v ctx)) S)) ->
     (forall v, In v (concat fs) -> ~ In v ctx) -> forall v, In v (leaves t) -> ~ In v S) as RN.
  { intros S fs t HS G ND' NC v Hv HvS. apply (kept_In fs t v G) in Hv. apply (ND' v Hv). rewrite filter_In, negb_true_iff, NmemB_false. split; auto. }
  assert (forall v, In v (concat lf) -> ~ In v ctx) as NCL by (intros v Hv; apply (pt_left _ _ _ _ PT v Hv)).
  pose proof (pt_right _ _ _ _ PT) as NCR.
  assert (forall S v, In S lf -> In v (concat rf) -> ~ In v S) as DL.
  { intros S v HS Hv HvS. assert (In v (concat lf)) as H by (apply In_concat; eauto). apply (pt_left _ _ _ _ PT) in H. tauto. }
  assert (forall S v, In S rf -> In v (concat lf) -> ~ In v S) as DR.
  { intros S v HS Hv HvS. assert (In v (concat rf)) as H by (apply In_concat; eauto). apply (pt_left _ _ _ _ PT) in Hv. tauto. }
  unfold put_together. destruct l as [tl|], r as [tr|]; simpl in SL, SR; subst.
  - exists (chain ctx (VNode tl tr)). split; auto. split.
    + rewrite chain_leaves. exact PV.
    + apply Forall_forall. intros S HS. apply kt_chain. destruct (pt_scope _ _ _ _ PT S HS) as [H|[H|H]].
      * apply kt_none. simpl. intros v Hv. apply in_app_or in Hv as [Hv|Hv]; revert v Hv.
        -- apply (RN S lf tl HS SL); auto. intros v _. rewrite H. auto.
        -- apply (RN S rf tr HS SR); auto. intros v _. rewrite H. auto.
      * apply kt_left; [|apply (RS S lf tl); auto]. apply (RN S rf tr HS SR); auto.
      * apply kt_right; [|apply (RS S rf tr); auto]. apply (RN S lf tl HS SL); auto.
  - exists (chain ctx tl). split; auto. split.
    + rewrite chain_leaves. simpl in PV. rewrite app_nil_r in PV. exact PV.
    + apply Forall_forall. intros S HS. apply kt_chain. destruct (pt_scope _ _ _ _ PT S HS) as [H|[H|[]]].
      * apply kt_none. apply (RN S lf tl HS SL); auto. intros v _. rewrite H. auto.
      * apply (RS S lf tl); auto.
  - exists (chain ctx tr). split; auto. split.
    + rewrite chain_leaves. exact PV.
    + apply Forall_forall. intros S HS. apply kt_chain. destruct (pt_scope _ _ _ _ PT S HS) as [H|[[]|H]].
      * apply kt_none. apply (RN S rf tr HS SR); auto. intros v _. rewrite H. auto.
      * apply (RS S rf tr); auto.
  - destruct ctx as [|c cs].
    + exfalso. simpl in PV. apply Permutation_nil in PV. destruct (concat scopes) as [|x y]; auto.
      assert (In x (distinct (x :: y))) as H by (apply In_distinct; simpl; auto). rewrite PV in H. destruct H.
    + exists (chain cs (Leaf c)). split; auto. split.
      * rewrite chain_leaves, Permutation_app_comm. simpl. simpl in PV. rewrite app_nil_r in PV. exact PV.
      * apply Forall_forall. intros S _. apply chain_kt.
Qed.

Theorem hyper_kt ords part : (forall p k l, Permutation (ords p k l) l) -> forall fuel p scopes, concat scopes <> [] ->
  (exists t, FactorGraphToVtree fuel ords part p scopes = Ok t /\ kept_for scopes t) \/
  (FactorGraphToVtree fuel ords part p scopes = NoFuel /\ ~ (two_sided part /\ 3 < length scopes /\ length scopes <= fuel)).
Proof.
  intros O. induction fuel as [|fuel IH]; intros p scopes N0.
  - right. split; auto. lia.
  - destruct (partition_spec (ords p 0) (part p scopes) scopes (O p 0)) as (lf & rf & ctx & E & PT & LL & LR).
    cbn [FactorGraphToVtree]. rewrite E.
    assert (length (block_scopes (part p scopes) true scopes) + length (block_scopes (part p scopes) false scopes) = length scopes) as LS.
    { rewrite <- app_length. apply Permutation_length, blocks_perm. }
    assert (two_sided part -> 3 < length scopes -> length scopes <= S fuel -> length lf <= fuel /\ length rf <= fuel) as TS.
    { intros T L3 LF. destruct (T p scopes L3) as (i & j & Li & Lj & Ei & Ej).
      pose proof (block_nonempty _ true scopes i Li Ei). pose proof (block_nonempty _ false scopes j Lj Ej). lia. }
    assert (forall b fs, Forall (fun S => S <> []) fs ->
      let sd := match fs with [] => Ok None | _ =>
                  do o <- BaseCase (ords (b :: p) 1) fs ;;
                  match o with Some t => Ok (Some t) | None => do t <- FactorGraphToVtree fuel ords part (b :: p) fs ;; Ok (Some t) end end in
      (exists o, sd = Ok o /\ side_kt fs o) \/ (sd = NoFuel /\ ~ (two_sided part /\ length fs <= fuel))) as SD.
    { intros b fs NE. destruct fs as [|S fs]; [left; exists None; split; reflexivity|].
      assert (concat (S :: fs) <> []) as N1. { apply Forall_cons_iff in NE as [NE _]. simpl. destruct S; [congruence|discriminate]. }
      cbv zeta. destruct (base_together (ords (b :: p) 1) (S :: fs) (O _ _) N1) as [(t & -> & G)|[-> L3]]; cbn [bind].
      - left. exists (Some t). auto.
      - destruct (IH (b :: p) (S :: fs) N1) as [(t & -> & G)|[-> NT]]; cbn [bind].
        + left. exists (Some t). auto.
        + right. split; auto. intros [T LF]. apply NT. auto. }
    destruct (SD false lf (proj1 (pt_nonempty _ _ _ _ PT))) as [(l & -> & SL)|[-> NT]]; cbn [bind].
    + destruct (SD true rf (proj2 (pt_nonempty _ _ _ _ PT))) as [(r & -> & SR)|[-> NT]]; cbn [bind].
      * left. eapply put_together_kt; eauto.
      * right. split; auto. intros (T & L3 & LF). apply NT. split; auto. apply TS; auto.
    + right. split; auto. intros (T & L3 & LF). apply NT. split; auto. apply TS; auto.
Qed.
Theorem hyper_together ords part scopes fuel : (forall p k l, Permutation (ords p k l) l) -> concat scopes <> [] ->
  (forall t, HypergraphVtree fuel ords part scopes = Ok t -> kept_for scopes t) /\
  HypergraphVtree fuel ords part scopes <> Abort /\ HypergraphVtree fuel ords part scopes <> UB /\
  (two_sided part -> length scopes <= fuel -> exists t, HypergraphVtree fuel ords part scopes = Ok t).
Proof.
  intros O N0. unfold HypergraphVtree. destruct (base_together (ords [] 1) scopes (O _ _) N0) as [(t & -> & G)|[-> L3]]; cbn [bind].
  - split; [intros t' [= <-]; auto|]. split; [discriminate|]. split; [discriminate|eauto].
  - destruct (hyper_kt ords part O fuel [] scopes N0) as [(t & -> & G)|[-> NT]].
    + split; [intros t' [= <-]; auto|]. split; [discriminate|]. split; [discriminate|eauto].
    + split; [discriminate|]. split; [discriminate|]. split; [discriminate|]. intros T LF. exfalso. auto.
Qed.
