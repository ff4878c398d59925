(** Proofs about the vtrees made by hypergraph partitioning. *)
From Verif Require Import Base Vtree VtreeProofs PgmLayout VtreeGen VtreeGenProofs.

Lemma In_distinct l v : In v (distinct l) <-> In v l.
Proof. apply nodup_In. Qed.
Lemma NoDup_distinct l : NoDup (distinct l).
Proof. apply NoDup_nodup. Qed.
(** The vtree has the variables of the scopes, each once, and suits every scope *)
Definition good_for (scopes : list (list N)) (t : vtree) : Prop :=
  Permutation (leaves t) (distinct (concat scopes)) /\ Forall (fun S => right_linear S t) scopes.
Lemma good_In scopes t v : good_for scopes t -> In v (leaves t) <-> In v (concat scopes).
Proof.
  intros [P _]. rewrite <- (In_distinct (concat scopes)). split; apply Permutation_in; [exact P|exact (Permutation_sym P)].
Qed.

(** ** BaseCase *)
Lemma chain_none_rl S vs v : right_linear S (chain vs (Leaf v)).
Proof. apply rl_chain. simpl. exact I. Qed.
Lemma base_spec ord scopes : (forall l, Permutation (ord l) l) -> concat scopes <> [] ->
  (exists t, BaseCase ord scopes = Ok (Some t) /\ good_for scopes t) \/ (BaseCase ord scopes = Ok None /\ 3 < length scopes).
Proof.
  intros O N0. unfold BaseCase. pose proof (O (distinct (concat scopes))) as P.
  destruct (ord (distinct (concat scopes))) as [|v [|w vs]] eqn:E.
  - exfalso. apply Permutation_nil in P. destruct (concat scopes) as [|x l]; auto.
    assert (In x (distinct (x :: l))) as H by (apply In_distinct; simpl; auto). rewrite P in H. destruct H.
  - left. exists (Leaf v). split; auto. split; auto. apply Forall_forall. intros S _. simpl. exact I.
  - destruct (Nat.leb_spec (length scopes) 3) as [L|L]; auto. left. exists (chain (w :: vs) (Leaf v)). split; auto. split.
    + rewrite chain_leaves. rewrite Permutation_app_comm. exact P.
    + apply Forall_forall. intros S _. apply chain_none_rl.
Qed.
Lemma base_empty ord scopes : (forall l, Permutation (ord l) l) -> concat scopes = [] -> BaseCase ord scopes = Abort.
Proof.
  intros O E. unfold BaseCase. rewrite E. simpl. pose proof (O []) as P. apply Permutation_sym, Permutation_nil in P. rewrite P. reflexivity.
Qed.

(** ** PartitionGraph *)
Lemma blocks_perm block scopes : Permutation (block_scopes block true scopes ++ block_scopes block false scopes) scopes.
Proof.
  unfold block_scopes. set (l := combine (seq 0 (length scopes)) scopes).
  assert (scopes = map snd l) as E.
  { unfold l. generalize 0. clear l. induction scopes as [|s l IH]; intros n; simpl; auto. rewrite <- IH. reflexivity. }
  transitivity (map snd l); [|rewrite <- E; reflexivity]. rewrite <- map_app. apply Permutation_map.
  transitivity (filter (fun x => Bool.eqb (block (fst x)) true) l ++ filter (fun x => negb (Bool.eqb (block (fst x)) true)) l); [|apply perm_split].
  apply Permutation_app_head. rewrite (filter_ext _ (fun x => negb (Bool.eqb (block (fst x)) true))); auto.
  intros x. destruct (block (fst x)); reflexivity.
Qed.
Lemma In_concat {A} (x : A) l : In x (concat l) <-> exists y, In y l /\ In x y.
Proof. rewrite in_concat. split; intros (y & H); exists y; tauto. Qed.
Record parted (scopes lf rf : list (list N)) (ctx : list N) : Prop := {
  pt_ctx : NoDup ctx;
  pt_vars : forall v, In v (concat scopes) <-> In v ctx \/ In v (concat lf) \/ In v (concat rf);
  pt_left : forall v, In v (concat lf) -> ~ In v ctx /\ ~ In v (concat rf);
  pt_right : forall v, In v (concat rf) -> ~ In v ctx;
  pt_scope : forall S, In S scopes -> let S' := filter (fun v => negb (NmemB v ctx)) S in S' = [] \/ In S' lf \/ In S' rf;
  pt_nonempty : Forall (fun S => S <> []) lf /\ Forall (fun S => S <> []) rf;
}.
Lemma filter_none {A} (f : A -> bool) l : (forall x, In x l -> f x = false) -> filter f l = [].
Proof. induction l as [|a l IH]; simpl; intros H; auto. rewrite H; auto. Qed.
Lemma filter_le {A} (f : A -> bool) l : length (filter f l) <= length l.
Proof. induction l as [|a l IH]; simpl; auto. destruct (f a); simpl; lia. Qed.
Lemma partition_spec ord block scopes : (forall l, Permutation (ord l) l) ->
  exists lf rf ctx, PartitionGraph ord block scopes = (lf, rf, ctx) /\ parted scopes lf rf ctx /\
    length lf <= length (block_scopes block true scopes) /\ length rf <= length (block_scopes block false scopes).
Proof.
  intros O. unfold PartitionGraph.
  set (bt := block_scopes block true scopes). set (bf := block_scopes block false scopes).
  set (vl := distinct (concat bt)). set (vr := distinct (concat bf)).
  set (ctx := filter (fun v => NmemB v vl) (ord vr)).
  set (cut := filter (fun v => negb (NmemB v ctx))).
  set (isl := fun sc : list N => match sc with v :: _ => NmemB v vl | [] => false end).
  set (isr := fun sc : list N => match sc with v :: _ => negb (NmemB v vl) | [] => false end).
  assert (forall S, In S scopes <-> In S bt \/ In S bf) as IB.
  { intros S. rewrite <- in_app_iff. split; apply Permutation_in; [apply Permutation_sym|]; apply blocks_perm. }
  assert (forall v, In v ctx <-> In v vl /\ In v vr) as IC.
  { intros v. unfold ctx. rewrite filter_In, NmemB_In. split.
    - intros [H1 H2]. split; auto. apply (Permutation_in v (O vr) H1).
    - intros [H1 H2]. split; auto. apply (Permutation_in v (Permutation_sym (O vr)) H2). }
  assert (forall S v, In v (cut S) <-> In v S /\ ~ In v ctx) as ICut.
  { intros S v. unfold cut. rewrite filter_In, negb_true_iff, NmemB_false. tauto. }
  assert (forall S v, In S bt -> In v S -> In v vl) as IL. { intros S v H1 H2. apply In_distinct, In_concat. eauto. }
  assert (forall S v, In S bf -> In v S -> In v vr) as IR. { intros S v H1 H2. apply In_distinct, In_concat. eauto. }
  assert (forall S, In S bt -> cut S <> [] -> isl (cut S) = true /\ isr (cut S) = false) as BL.
  { intros S H NE. destruct (cut S) as [|v l] eqn:E; [congruence|]. assert (In v (cut S)) as Hv by (rewrite E; simpl; auto).
    apply ICut in Hv as [Hv _]. assert (NmemB v vl = true) as M by (apply NmemB_In; eauto). simpl. rewrite M. auto. }
  assert (forall S, In S bf -> cut S <> [] -> isl (cut S) = false /\ isr (cut S) = true) as BR.
  { intros S H NE. destruct (cut S) as [|v l] eqn:E; [congruence|]. assert (In v (cut S)) as Hv by (rewrite E; simpl; auto).
    apply ICut in Hv as [Hv NC]. assert (NmemB v vl = false) as M. { apply NmemB_false. intros H'. apply NC, IC. eauto. } simpl. rewrite M. auto. }
  assert (forall S, In S (filter isl (map cut scopes)) <-> S <> [] /\ exists S0, In S0 bt /\ S = cut S0) as ILF.
  { intros S. rewrite filter_In, in_map_iff. split.
    - intros [(S0 & <- & H) HL]. assert (cut S0 <> []) as NE by (intros Z; rewrite Z in HL; discriminate). split; auto. apply IB in H as [H|H]; eauto.
      destruct (BR S0 H NE). congruence.
    - intros [NE (S0 & H & ->)]. split; [exists S0; split; auto; apply IB; auto|]. apply BL; auto. }
  assert (forall S, In S (filter isr (map cut scopes)) <-> S <> [] /\ exists S0, In S0 bf /\ S = cut S0) as IRF.
  { intros S. rewrite filter_In, in_map_iff. split.
    - intros [(S0 & <- & H) HL]. assert (cut S0 <> []) as NE by (intros Z; rewrite Z in HL; discriminate). split; auto. apply IB in H as [H|H]; eauto.
      destruct (BL S0 H NE). congruence.
    - intros [NE (S0 & H & ->)]. split; [exists S0; split; auto; apply IB; auto|]. apply BR; auto. }
  assert (forall v, In v (concat (filter isl (map cut scopes))) <-> In v vl /\ ~ In v ctx) as VL.
  { intros v. rewrite In_concat. split.
    - intros (S & H & Hv). apply ILF in H as (_ & S0 & H & ->). apply ICut in Hv as [Hv NC]. split; eauto.
    - intros [H NC]. apply In_distinct, In_concat in H as (S0 & H & Hv). exists (cut S0). assert (In v (cut S0)) as Hc by (apply ICut; auto).
      split; auto. apply ILF. split; eauto. intros Z. rewrite Z in Hc. destruct Hc. }
  assert (forall v, In v (concat (filter isr (map cut scopes))) <-> In v vr /\ ~ In v ctx) as VR.
  { intros v. rewrite In_concat. split.
    - intros (S & H & Hv). apply IRF in H as (_ & S0 & H & ->). apply ICut in Hv as [Hv NC]. split; eauto.
    - intros [H NC]. apply In_distinct, In_concat in H as (S0 & H & Hv). exists (cut S0). assert (In v (cut S0)) as Hc by (apply ICut; auto).
      split; auto. apply IRF. split; eauto. intros Z. rewrite Z in Hc. destruct Hc. }
  exists (filter isl (map cut scopes)), (filter isr (map cut scopes)), ctx. split; [reflexivity|]. split; [constructor|split].
  - unfold ctx. apply NoDup_filter. apply (Permutation_NoDup (Permutation_sym (O vr))). apply NoDup_distinct.
  - intros v. rewrite VL, VR. rewrite In_concat. split.
    + intros (S & H & Hv). destruct (in_dec N.eq_dec v ctx) as [I|NI]; auto. right. apply IB in H as [H|H]; [left|right]; eauto.
    + intros H. assert (In v vl \/ In v vr) as [H'|H'] by (rewrite IC in H; tauto); apply In_distinct, In_concat in H' as (S & HS & Hv); exists S; split; auto; apply IB; auto.
  - intros v. rewrite VL, VR. intros [H1 H2]. split; auto. intros [H3 _]. apply H2, IC. auto.
  - intros v. rewrite VR. tauto.
  - intros S H. fold (cut S). destruct (cut S) as [|x l] eqn:E; auto. right. rewrite <- E. apply IB in H as [H|H].
    + left. apply ILF. split; eauto. congruence.
    + right. apply IRF. split; eauto. congruence.
  - split; apply Forall_forall; intros S H; [apply ILF in H|apply IRF in H]; tauto.
  - rewrite <- (Permutation_length (perm_filter isl _ _ (Permutation_map cut (blocks_perm block scopes)))). fold bt bf.
    rewrite map_app, filter_app, app_length, (filter_none isl (map cut bf)).
    + simpl. rewrite Nat.add_0_r. etransitivity; [apply filter_le|]. rewrite map_length. auto.
    + intros S H. apply in_map_iff in H as (S0 & <- & H). destruct (cut S0) as [|x l] eqn:E; auto. rewrite <- E. apply BR; auto. congruence.
  - rewrite <- (Permutation_length (perm_filter isr _ _ (Permutation_map cut (blocks_perm block scopes)))). fold bt bf.
    rewrite map_app, filter_app, app_length, (filter_none isr (map cut bt)).
    + simpl. etransitivity; [apply filter_le|]. rewrite map_length. auto.
    + intros S H. apply in_map_iff in H as (S0 & <- & H). destruct (cut S0) as [|x l] eqn:E; auto. rewrite <- E. apply BL; auto. congruence.
Qed.

(** ** Putting the parts together *)
Definition side_ok (fs : list (list N)) (o : option vtree) : Prop :=
  match o with None => fs = [] | Some t => good_for fs t end.
Lemma put_spec scopes lf rf ctx l r : parted scopes lf rf ctx -> concat scopes <> [] -> side_ok lf l -> side_ok rf r ->
  exists t, put_together l r ctx = Ok t /\ good_for scopes t.
Proof.
  intros PT N0 SL SR.
  assert (forall fs o v, side_ok fs o -> In v (match o with Some t => leaves t | None => [] end) <-> In v (concat fs)) as LV.
  { intros fs [t|] v H; [apply good_In; auto|]. simpl in H. subst. simpl. tauto. }
  assert (forall fs o, side_ok fs o -> NoDup (match o with Some t => leaves t | None => [] end)) as LN.
  { intros fs [t|] H; [|constructor]. destruct H as [P _]. apply (Permutation_NoDup (Permutation_sym P)), NoDup_distinct. }
  set (lv := fun o : option vtree => match o with Some t => leaves t | None => [] end) in *.
  assert (NoDup (ctx ++ lv l ++ lv r)) as ND.
  { apply NoDup_app_intro; [apply (pt_ctx _ _ _ _ PT)| |].
    - apply NoDup_app_intro; [eapply LN; eauto|eapply LN; eauto|]. intros v H1 H2. apply (LV _ _ v SL) in H1. apply (LV _ _ v SR) in H2.
      apply (pt_left _ _ _ _ PT) in H1. tauto.
    - intros v H1 H2. apply in_app_or in H2 as [H2|H2].
      + apply (LV _ _ v SL) in H2. apply (pt_left _ _ _ _ PT) in H2. tauto.
      + apply (LV _ _ v SR) in H2. apply (pt_right _ _ _ _ PT) in H2. tauto. }
  assert (forall v, In v (ctx ++ lv l ++ lv r) <-> In v (concat scopes)) as IV.
  { intros v. rewrite !in_app_iff, (pt_vars _ _ _ _ PT). unfold lv. rewrite (LV _ _ v SL), (LV _ _ v SR). tauto. }
  assert (Permutation (ctx ++ lv l ++ lv r) (distinct (concat scopes))) as PV.
  { apply NoDup_Permutation; auto; [apply NoDup_distinct|]. intros v. rewrite In_distinct. auto. }
  assert (forall S fs t, In S scopes -> good_for fs t -> In (filter (fun v => negb (NmemB v ctx)) S) fs -> (forall v, In v (concat fs) -> ~ In v ctx) -> right_linear S t) as RS.
  { intros S fs t HS G IF NC. apply (rl_ext (filter (fun v => negb (NmemB v ctx)) S)).
    - intros v Hv. apply (good_In fs t v G), NC in Hv. rewrite filter_In, negb_true_iff, NmemB_false. tauto.
    - destruct G as [_ F]. rewrite Forall_forall in F. auto. }
  assert (forall S fs t, In S scopes -> good_for fs t -> (forall v, In v (concat fs) -> ~ In v (filter (fun v => negb (NmemB v ctx)) S)) ->
     (forall v, In v (concat fs) -> ~ In v ctx) -> forall v, In v (leaves t) -> ~ In v S) as RN.
  { intros S fs t HS G ND' NC v Hv HvS. apply (good_In fs t v G) in Hv. apply (ND' v Hv). rewrite filter_In, negb_true_iff, NmemB_false. split; auto. }
  assert (forall v, In v (concat lf) -> ~ In v ctx) as NCL by (intros v Hv; apply (pt_left _ _ _ _ PT v Hv)).
  pose proof (pt_right _ _ _ _ PT) as NCR.
  assert (forall S v, In S lf -> In v (concat rf) -> ~ In v S) as DL.
  { intros S v HS Hv HvS. assert (In v (concat lf)) as H by (apply In_concat; eauto). apply (pt_left _ _ _ _ PT) in H. tauto. }
  assert (forall S v, In S rf -> In v (concat lf) -> ~ In v S) as DR.
  { intros S v HS Hv HvS. assert (In v (concat rf)) as H by (apply In_concat; eauto). apply (pt_left _ _ _ _ PT) in Hv. tauto. }
  unfold put_together. destruct l as [tl|], r as [tr|]; simpl in SL, SR; subst.
  - exists (chain ctx (VNode tl tr)). split; auto. split.
    + rewrite chain_leaves. exact PV.
    + apply Forall_forall. intros S HS. apply rl_chain. destruct (pt_scope _ _ _ _ PT S HS) as [H|[H|H]].
      * apply rl_none. simpl. intros v Hv. apply in_app_or in Hv as [Hv|Hv]; revert v Hv.
        -- apply (RN S lf tl HS SL); auto. intros v _. rewrite H. auto.
        -- apply (RN S rf tr HS SR); auto. intros v _. rewrite H. auto.
      * apply rl_left; [|apply (RS S lf tl); auto]. apply (RN S rf tr HS SR); auto.
      * apply rl_right; [|apply (RS S rf tr); auto]. apply (RN S lf tl HS SL); auto.
  - exists (chain ctx tl). split; auto. split.
    + rewrite chain_leaves. simpl in PV. rewrite app_nil_r in PV. exact PV.
    + apply Forall_forall. intros S HS. apply rl_chain. destruct (pt_scope _ _ _ _ PT S HS) as [H|[H|[]]].
      * apply rl_none. apply (RN S lf tl HS SL); auto. intros v _. rewrite H. auto.
      * apply (RS S lf tl); auto.
  - exists (chain ctx tr). split; auto. split.
    + rewrite chain_leaves. exact PV.
    + apply Forall_forall. intros S HS. apply rl_chain. destruct (pt_scope _ _ _ _ PT S HS) as [H|[[]|H]].
      * apply rl_none. apply (RN S rf tr HS SR); auto. intros v _. rewrite H. auto.
      * apply (RS S rf tr); auto.
  - destruct ctx as [|c cs].
    + exfalso. simpl in PV. apply Permutation_nil in PV. destruct (concat scopes) as [|x y]; auto.
      assert (In x (distinct (x :: y))) as H by (apply In_distinct; simpl; auto). rewrite PV in H. destruct H.
    + exists (chain cs (Leaf c)). split; auto. split.
      * rewrite chain_leaves, Permutation_app_comm. simpl. simpl in PV. rewrite app_nil_r in PV. exact PV.
      * apply Forall_forall. intros S _. apply chain_none_rl.
Qed.

(** ** FactorGraphToVtree *)
(** Neither block of the partition is empty *)
Definition two_sided (part : path -> list (list N) -> nat -> bool) : Prop := forall p scopes, 3 < length scopes ->
  exists i j, i < length scopes /\ j < length scopes /\ part p scopes i = true /\ part p scopes j = false.
Lemma block_nonempty block b scopes i : i < length scopes -> block i = b -> 1 <= length (block_scopes block b scopes).
Proof.
  intros L E. assert (exists x, In x (block_scopes block b scopes)) as [x H].
  { destruct (nth_error scopes i) as [x|] eqn:Ex; [|apply nth_error_None in Ex; lia]. exists x. unfold block_scopes. apply in_map_iff. exists (i, x).
    split; auto. apply filter_In. cbn [fst]. split; [|rewrite E; apply eqb_reflx].
    assert (forall (l : list (list N)) n k, nth_error l k = Some x -> In (n + k, x) (combine (seq n (length l)) l)) as G.
    { induction l as [|y l IH]; intros n k H; destruct k; simpl in *; try discriminate.
      - injection H as ->. rewrite Nat.add_0_r. auto.
      - right. replace (n + S k) with (S n + k) by lia. apply IH. auto. }
    apply (G scopes 0 i Ex). }
  destruct (block_scopes block b scopes); [destruct H|simpl; lia].
Qed.
Theorem hyper_spec ords part : (forall p k l, Permutation (ords p k l) l) -> forall fuel p scopes, concat scopes <> [] ->
  (exists t, FactorGraphToVtree fuel ords part p scopes = Ok t /\ good_for scopes t) \/
  (FactorGraphToVtree fuel ords part p scopes = NoFuel /\ ~ (two_sided part /\ 3 < length scopes /\ length scopes <= fuel)).
Proof.
  intros O. induction fuel as [|fuel IH]; intros p scopes N0.
  - right. split; auto. lia.
  - destruct (partition_spec (ords p 0) (part p scopes) scopes (O p 0)) as (lf & rf & ctx & E & PT & LL & LR).
    cbn [FactorGraphToVtree]. rewrite E.
    assert (length (block_scopes (part p scopes) true scopes) + length (block_scopes (part p scopes) false scopes) = length scopes) as LS.
    { rewrite <- app_length. apply Permutation_length, blocks_perm. }
    assert (two_sided part -> 3 < length scopes -> length scopes <= S fuel -> length lf <= fuel /\ length rf <= fuel) as TS.
    { intros T L3 LF. destruct (T p scopes L3) as (i & j & Li & Lj & Ei & Ej).
      pose proof (block_nonempty _ true scopes i Li Ei). pose proof (block_nonempty _ false scopes j Lj Ej). lia. }
    assert (forall b fs, Forall (fun S => S <> []) fs ->
      let sd := match fs with [] => Ok None | _ =>
                  do o <- BaseCase (ords (b :: p) 1) fs ;;
                  match o with Some t => Ok (Some t) | None => do t <- FactorGraphToVtree fuel ords part (b :: p) fs ;; Ok (Some t) end end in
      (exists o, sd = Ok o /\ side_ok fs o) \/ (sd = NoFuel /\ ~ (two_sided part /\ length fs <= fuel))) as SD.
    { intros b fs NE. destruct fs as [|S fs]; [left; exists None; split; reflexivity|].
      assert (concat (S :: fs) <> []) as N1. { apply Forall_cons_iff in NE as [NE _]. simpl. destruct S; [congruence|discriminate]. }
      cbv zeta. destruct (base_spec (ords (b :: p) 1) (S :: fs) (O _ _) N1) as [(t & -> & G)|[-> L3]]; cbn [bind].
      - left. exists (Some t). auto.
      - destruct (IH (b :: p) (S :: fs) N1) as [(t & -> & G)|[-> NT]]; cbn [bind].
        + left. exists (Some t). auto.
        + right. split; auto. intros [T LF]. apply NT. auto. }
    destruct (SD false lf (proj1 (pt_nonempty _ _ _ _ PT))) as [(l & -> & SL)|[-> NT]]; cbn [bind].
    + destruct (SD true rf (proj2 (pt_nonempty _ _ _ _ PT))) as [(r & -> & SR)|[-> NT]]; cbn [bind].
      * left. eapply put_spec; eauto.
      * right. split; auto. intros (T & L3 & LF). apply NT. split; auto. apply TS; auto.
    + right. split; auto. intros (T & L3 & LF). apply NT. split; auto. apply TS; auto.
Qed.
Theorem hyper_full ords part scopes fuel : (forall p k l, Permutation (ords p k l) l) -> concat scopes <> [] ->
  (forall t, HypergraphVtree fuel ords part scopes = Ok t -> good_for scopes t) /\
  HypergraphVtree fuel ords part scopes <> Abort /\ HypergraphVtree fuel ords part scopes <> UB /\
  (two_sided part -> length scopes <= fuel -> exists t, HypergraphVtree fuel ords part scopes = Ok t).
Proof.
  intros O N0. unfold HypergraphVtree. destruct (base_spec (ords [] 1) scopes (O _ _) N0) as [(t & -> & G)|[-> L3]]; cbn [bind].
  - split; [intros t' [= <-]; auto|]. split; [discriminate|]. split; [discriminate|eauto].
  - destruct (hyper_spec ords part O fuel [] scopes N0) as [(t & -> & G)|[-> NT]].
    + split; [intros t' [= <-]; auto|]. split; [discriminate|]. split; [discriminate|eauto].
    + split; [discriminate|]. split; [discriminate|]. split; [discriminate|]. intros T LF. exfalso. auto.
Qed.
(** A partitioner that puts everything on one side *)
Theorem hyper_loops ords part scopes : (forall p k l, Permutation (ords p k l) l) -> (forall p fs i, part p fs i = true) -> Forall (fun S => S <> []) scopes ->
  3 < length scopes -> (exists a b, In a (concat scopes) /\ In b (concat scopes) /\ a <> b) -> forall fuel, HypergraphVtree fuel ords part scopes = NoFuel.
Proof.
  intros O T NE L3 (a & b & Ha & Hb & NAB) fuel.
  assert (forall p, BaseCase (ords p 1) scopes = Ok None) as BC.
  { intros p. unfold BaseCase. pose proof (O p 1 (distinct (concat scopes))) as P.
    destruct (ords p 1 (distinct (concat scopes))) as [|v [|w vs]] eqn:E.
    - exfalso. apply Permutation_nil in P. apply In_distinct in Ha. rewrite P in Ha. destruct Ha.
    - exfalso. apply In_distinct in Ha. apply In_distinct in Hb. apply (Permutation_in a (Permutation_sym P)) in Ha. apply (Permutation_in b (Permutation_sym P)) in Hb.
      simpl in Ha, Hb. intuition congruence.
    - destruct (Nat.leb_spec (length scopes) 3); auto. lia. }
  assert (forall p, PartitionGraph (ords p 0) (part p scopes) scopes = (scopes, [], [])) as PG.
  { intros p. unfold PartitionGraph. assert (block_scopes (part p scopes) false scopes = []) as ->.
    { unfold block_scopes. rewrite filter_none; auto. intros x _. rewrite T. reflexivity. }
    assert (block_scopes (part p scopes) true scopes = scopes) as ->.
    { unfold block_scopes. rewrite (filter_ext _ (fun _ => true)) by (intros x; rewrite T; auto).
      replace (filter (fun _ => true) (combine (seq 0 (length scopes)) scopes)) with (combine (seq 0 (length scopes)) scopes).
      - clear. generalize 0. induction scopes as [|s l IH]; intros n; simpl; auto. rewrite IH. reflexivity.
      - generalize (combine (seq 0 (length scopes)) scopes). intros l. induction l as [|x l IH]; simpl; auto. rewrite <- IH. auto. }
    pose proof (O p 0 []) as P0. apply Permutation_sym, Permutation_nil in P0. change (distinct (concat [])) with (@nil N). cbv zeta. rewrite P0. cbn [filter NmemB existsb negb].
    assert (map (filter (fun _ : N => true)) scopes = scopes) as ->.
    { rewrite <- (map_id scopes) at 2. apply map_ext. intros l. induction l as [|x l IH]; simpl; auto. rewrite IH. auto. }
    assert (forall S v l, In S scopes -> S = v :: l -> NmemB v (distinct (concat scopes)) = true) as M.
    { intros S v l HS ->. apply NmemB_In, In_distinct, In_concat. exists (v :: l). simpl; auto. }
    f_equal. f_equal.
    - rewrite Forall_forall in NE. assert (forall sub, incl sub scopes -> filter (fun sc => match sc with [] => false | v :: _ => NmemB v (distinct (concat scopes)) end) sub = sub) as G.
      { induction sub as [|S sub IH]; intros I; simpl; auto. assert (In S scopes) as HS by (apply I; simpl; auto).
        destruct S as [|v l]; [exfalso; apply (NE [] HS); auto|]. rewrite (M _ v l HS eq_refl). rewrite IH; auto. intros x Hx. apply I. simpl; auto. }
      apply G, incl_refl.
    - apply filter_none. intros S HS. destruct S as [|v l]; auto. rewrite (M _ v l HS eq_refl). auto. }
  assert (scopes <> []) as NS by (intros ->; simpl in L3; lia).
  unfold HypergraphVtree. rewrite BC. cbn [bind]. generalize (@nil bool).
  induction fuel as [|fuel IH]; intros p; auto. cbn [FactorGraphToVtree]. rewrite PG.
  destruct scopes as [|S0 fs]; [congruence|]. rewrite BC. cbn [bind]. rewrite IH. reflexivity.
Qed.
