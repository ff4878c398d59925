(** How the vtree of minfill_vtree.cpp splits the variables: connected parts are conditioned on the variable eliminated last, parts that do not interact
    are put apart. *)
From Coq Require Import Relations.
From Verif Require Import Base Vtree VtreeProofs PgmLayout VtreeGen VtreeGenProofs.

(** One can get from [u] to [v] through variables in [L], each sharing a factor with the next *)
Definition linked (scopes : list (list N)) (L : list N) : N -> N -> Prop :=
  clos_refl_trans N (fun a b => In a L /\ In b L /\ exists S, In S scopes /\ In a S /\ In b S).
Definition all_linked (scopes : list (list N)) (L : list N) : Prop := forall u v, In u L -> In v L -> linked scopes L u v.
(** [a] stands before [b] in [o] *)
Definition before (o : list N) (a b : N) : Prop := exists x y, o = x ++ a :: y /\ In b y.
Inductive subvtree (s : vtree) : vtree -> Prop :=
  | sub_here : subvtree s s
  | sub_left l r : subvtree s l -> subvtree s (VNode l r)
  | sub_right l r : subvtree s r -> subvtree s (VNode l r).

Section R.
Context (E : N -> N -> Prop) (Esym : forall a b, E a b -> E b a).
Definition inside (L : list N) (a b : N) : Prop := In a L /\ In b L /\ E a b.
Definition conn (L : list N) : N -> N -> Prop := clos_refl_trans N (inside L).
Lemma conn_sym L a b : conn L a b -> conn L b a.
Proof. induction 1 as [a b (H1 & H2 & H3)|a|a b c _ IH1 _ IH2]; [apply rt_step; repeat split; auto|apply rt_refl|eapply rt_trans; eauto]. Qed.
Lemma conn_incl L L' a b : incl L L' -> conn L a b -> conn L' a b.
Proof. intros I. induction 1 as [a b (H1 & H2 & H3)|a|a b c _ IH1 _ IH2]; [apply rt_step; repeat split; auto|apply rt_refl|eapply rt_trans; eauto]. Qed.
(** a set that no edge leaves *)
Lemma conn_closed L (f : N -> bool) a b : (forall x y, inside L x y -> f x = f y) -> conn L a b -> f a = f b.
Proof. intros C. induction 1 as [a b H|a|a b c _ IH1 _ IH2]; [auto|auto|congruence]. Qed.
Lemma conn_sub L L' (f : N -> bool) a b : (forall x y, inside L x y -> f x = f y) -> (forall x, In x L -> f x = true -> In x L') -> conn L a b -> f a = true -> conn L' a b.
Proof.
  intros C I H. induction H as [a b H|a|a b c H1 IH1 H2 IH2]; intros F.
  - destruct H as (A & B & D). apply rt_step. repeat split; auto. apply I; auto. rewrite <- (C a b); auto. repeat split; auto.
  - apply rt_refl.
  - eapply rt_trans; [apply IH1; auto|]. apply IH2. rewrite <- (conn_closed L f a b); auto.
Qed.

Context (order0 : list N).
Definition split_ok (t : vtree) : Prop := forall l r, subvtree (VNode l r) t ->
  ((forall u v, In u (leaves (VNode l r)) -> In v (leaves (VNode l r)) -> conn (leaves (VNode l r)) u v) /\
   exists v, l = Leaf v /\ forall w, In w (leaves r) -> before order0 v w) \/
  ((forall u v, In u (leaves l) -> In v (leaves l) -> conn (leaves l) u v) /\ forall u w, In u (leaves l) -> In w (leaves r) -> ~ E u w).
Record of_graph (g : graph) (order : list N) : Prop := {
  og_wf : gwf g;
  og_adj : forall a b, adj g a b <-> inside (keys g) a b;
  og_perm : Permutation order (keys g);
  og_order : forall a b, before order a b -> before order0 a b;
}.

Lemma dfs_reach g (W : gwf g) b : forall fuel ex st ex', (forall a, In a ex -> clos_refl_trans N (adj g) b a) -> incl st ex -> dfs fuel g ex st = Ok ex' ->
  forall a, In a ex' -> clos_refl_trans N (adj g) b a.
Proof.
  induction fuel as [|fuel IH]; intros ex [|c st] ex' R I D; simpl in D; try discriminate.
  - injection D as <-. auto.
  - injection D as <-. auto.
  - destruct (Nlookup c g) as [nb|] eqn:Hnb; [|discriminate]. simpl in D.
    set (go := fold_left dfs_push nb (ex, st)) in D.
    assert (forall a, In a (fst go) -> clos_refl_trans N (adj g) b a) as R1; [|assert (incl (snd go) (fst go)) as I1; [|eapply IH; eauto]].
    + assert (forall a, In a nb -> clos_refl_trans N (adj g) b a) as RN.
      { intros a Ha. eapply rt_trans; [apply (R c), I; simpl; auto|]. apply rt_step. exists nb. auto. }
      unfold go. clear D go Hnb. assert (incl st ex) as I' by (intros x Hx; apply I; simpl; auto). clear I. revert ex st R I'.
      induction nb as [|v nb IHn]; intros ex st R I'; simpl; auto.
      unfold dfs_push at 2. simpl. destruct (NmemB v ex).
      * apply IHn; auto. intros a Ha. apply RN. simpl; auto.
      * apply IHn.
        -- intros a Ha. apply RN. simpl; auto.
        -- intros a [<-|Ha]; auto. apply RN. simpl; auto.
        -- intros x [<-|Hx]; simpl; auto.
    + unfold go. assert (incl st ex) as I' by (intros x Hx; apply I; simpl; auto). clear -I'. revert ex st I'.
      induction nb as [|v nb IHn]; intros ex st I'; simpl; auto.
      unfold dfs_push at 2 4. simpl. destruct (NmemB v ex); [apply IHn; auto|]. apply IHn. intros x [<-|Hx]; simpl; auto.
Qed.
Lemma connected_reach g b : gwf g -> In b (keys g) ->
  (ConnectedGraph g b = Ok (g, []) /\ forall a, In a (keys g) -> clos_refl_trans N (adj g) b a) \/
  exists ex, ConnectedGraph g b = Ok (filter (fun e => NmemB (fst e) ex) g, filter (fun e => negb (NmemB (fst e) ex)) g) /\
    In b ex /\ (exists c, In c (keys g) /\ ~ In c ex) /\ (forall x y, adj g x y -> NmemB x ex = NmemB y ex) /\ forall a, In a ex -> clos_refl_trans N (adj g) b a.
Proof.
  intros W Hb. pose proof (connected_spec g b W Hb) as CS. unfold ConnectedGraph in *.
  destruct (Nat.eqb_spec (length g) 0) as [L0|L0]; [destruct g; [destruct Hb|discriminate]|]. simpl in *.
  destruct (dfs_spec g W (length g) [b] [b]) as (ex & Ex & ND & I & K & C).
  - constructor; [intros []|constructor].
  - constructor; [intros []|constructor].
  - apply incl_refl.
  - intros v [<-|[]]. exact Hb.
  - intros a c Ha NA. exfalso; auto.
  - simpl. lia.
  - rewrite Ex in *. simpl in *. assert (forall a, In a ex -> clos_refl_trans N (adj g) b a) as R.
    { apply (dfs_reach g W b (length g) [b] [b]); auto; [intros a [<-|[]]; apply rt_refl|apply incl_refl]. }
    destruct (Nat.eqb_spec (length ex) (length g)) as [EL|NL].
    + left. split; auto. intros a Ha. apply R. apply (NoDup_length_incl (l := ex) (l' := keys g)); auto. unfold keys. rewrite map_length. lia.
    + right. exists ex. split; auto. split; [apply I; simpl; auto|].
      destruct CS as [CS|(ex2 & CS & B2 & (c & Hc & Nc) & SE)].
      * exfalso. injection CS as CS _. apply NL. apply Nat.le_antisymm.
        -- rewrite <- (map_length fst g). apply NoDup_incl_length; auto.
        -- rewrite <- (map_length fst g). apply NoDup_incl_length; [apply (g_keys _ W)|]. intros x Hx. fold (keys g) in Hx. rewrite <- CS in Hx.
           rewrite (keys_filter (fun k => NmemB k ex)), filter_In in Hx. apply NmemB_In, Hx.
      * assert (forall k, In k (keys g) -> NmemB k ex = NmemB k ex2) as EQ.
        { injection CS as C1 C2. intros k Hk. assert (In k (keys (filter (fun e => NmemB (fst e) ex) g)) <-> In k (keys (filter (fun e => NmemB (fst e) ex2) g))) as Q by (rewrite C1; tauto).
          rewrite (keys_filter (fun k => NmemB k ex)), (keys_filter (fun k => NmemB k ex2)), !filter_In in Q.
          destruct (NmemB k ex), (NmemB k ex2); auto; intuition discriminate. }
        split; [exists c; split; auto; apply NmemB_false; rewrite EQ; auto; apply NmemB_false; auto|]. split; auto.
        intros x y A. destruct (adj_key g x y W A). rewrite !EQ; auto.
Qed.
Lemma before_tail o v a b : before o a b -> before (v :: o) a b.
Proof. intros (x & y & -> & H). exists (v :: x), y. auto. Qed.
Lemma before_filter (f : N -> bool) a b : forall o, before (filter f o) a b -> before o a b.
Proof.
  induction o as [|v o IH]; simpl; intros (x & y & H & Hb).
  - destruct x; discriminate.
  - destruct (f v).
    + destruct x as [|x0 x]; injection H as -> H.
      * exists [], o. split; auto. rewrite <- H in Hb. apply filter_In in Hb. apply Hb.
      * apply before_tail, IH. exists x, y. auto.
    + apply before_tail, IH. exists x, y. auto.
Qed.
Lemma conn_ext L L' a b : (forall x, In x L <-> In x L') -> conn L a b -> conn L' a b.
Proof. intros H. apply conn_incl. intros x. apply H. Qed.
Lemma reach_conn g b a : (forall a b, adj g a b <-> inside (keys g) a b) -> clos_refl_trans N (adj g) b a -> conn (keys g) b a.
Proof. intros A. induction 1 as [a b H|a|a b c _ IH1 _ IH2]; [apply rt_step, A; auto|apply rt_refl|eapply rt_trans; eauto]. Qed.

Theorem vtree_splits begin : (forall p g, g <> [] -> In (begin p g) (keys g)) -> forall fuel p g order t, of_graph g order -> order <> [] ->
  length order <= S fuel -> VtreeFromGraph fuel begin p g order = Ok t -> Permutation (leaves t) (keys g) /\ split_ok t.
Proof.
  intros B. induction fuel as [|fuel IH]; intros p g order t OG NE L RUN.
  - destruct order as [|v [|w order]]; [contradiction| |simpl in L; lia]. injection RUN as <-. split; [apply (og_perm _ _ OG)|]. intros l r H. inversion H.
  - destruct order as [|v order']; [contradiction|]. destruct order' as [|w order''].
    { injection RUN as <-. split; [apply (og_perm _ _ OG)|]. intros l r H. inversion H. }
    remember (w :: order'') as order' eqn:EO. destruct OG as [W AD PO OO]. assert (g <> []) as NG.
    { intros ->. simpl in PO. apply Permutation_sym, Permutation_nil in PO. discriminate. }
    assert (VtreeFromGraph (S fuel) begin p g (v :: order') =
      do (g1, g2) <- ConnectedGraph g (begin p g) ;;
      match g2 with
      | [] => do r <- RemoveNode g1 v ;; do t <- VtreeFromGraph fuel begin (true :: p) r order' ;; Ok (VNode (Leaf v) t)
      | _ =>
          do l <- VtreeFromGraph fuel begin (false :: p) g1 (filter (fun v => NmemB v (keys g1)) (v :: order')) ;;
          do r <- VtreeFromGraph fuel begin (true :: p) g2 (filter (fun v => negb (NmemB v (keys g1))) (v :: order')) ;;
          Ok (VNode l r)
      end) as EQ by (subst order'; reflexivity). rewrite EQ in RUN. clear EQ.
    destruct (connected_reach g (begin p g) W (B p g NG)) as [[CG RE]|(ex & CG & Hb & (c & Hc & Nc) & SE & RE)]; rewrite CG in RUN; cbn [bind] in RUN.
    + assert (In v (keys g)) as Kv by (apply (Permutation_in v PO); simpl; auto).
      destruct (remove_spec g v W Kv) as (r & ER & WR & KR & AR). rewrite ER in RUN. cbn [bind] in RUN.
      assert (NoDup (v :: order')) as NDo by (apply (Permutation_NoDup (Permutation_sym PO)), (g_keys _ W)). apply NoDup_cons_iff in NDo as [Nv NDo].
      assert (without v (v :: order') = order') as EW.
      { unfold without. cbn [filter]. rewrite N.eqb_refl. cbn [negb].
        clear -Nv. induction order' as [|x l IHl]; cbn; auto. destruct (N.eqb_spec x v) as [->|]; cbn; [exfalso; apply Nv; simpl; auto|].
        rewrite IHl; auto. intros H. apply Nv. simpl; auto. }
      assert (Permutation order' (keys r)) as PO'. { rewrite KR, <- EW at 1. unfold without. apply perm_filter. exact PO. }
      destruct (VtreeFromGraph fuel begin (true :: p) r order') as [t'| | |] eqn:ET; try discriminate. injection RUN as <-.
      destruct (IH (true :: p) r order' t') as [PL SO]; auto.
      * constructor; auto.
        -- intros a b. rewrite AR, AD, KR. unfold inside. rewrite !In_without. tauto.
        -- intros a b H. apply OO, before_tail, H.
      * subst; discriminate.
      * simpl in L; lia.
      * assert (Permutation (v :: leaves t') (keys g)) as PL' by (rewrite PL, <- PO'; exact PO).
        split; [exact PL'|]. intros l0 r0 H. inversion H; subst l0 r0 || subst.
        -- left. split.
           ++ intros a b Ha Hb. apply (conn_ext (keys g)). { intros x. split; apply Permutation_in; [symmetry|]; exact PL'. }
              apply (Permutation_in _ PL') in Ha. apply (Permutation_in _ PL') in Hb.
              eapply rt_trans; [apply conn_sym, (reach_conn g (begin p g)); auto|apply reach_conn; auto].
           ++ exists v. split; auto. intros x Hx. apply OO. exists [], order'. split; auto. apply (Permutation_in x (Permutation_trans PL (Permutation_sym PO'))). exact Hx.
        -- match goal with H1 : subvtree _ (Leaf _) |- _ => inversion H1 end.
        -- apply SO. auto.
    + set (g1 := filter (fun e => NmemB (fst e) ex) g) in *. set (g2 := filter (fun e => negb (NmemB (fst e) ex)) g) in *.
      assert (keys g1 = filter (fun k => NmemB k ex) (keys g)) as K1 by apply (keys_filter (fun k => NmemB k ex)).
      assert (keys g2 = filter (fun k => negb (NmemB k ex)) (keys g)) as K2 by apply (keys_filter (fun k => negb (NmemB k ex))).
      assert (gwf g1) as W1 by (apply (gwf_filter (fun k => NmemB k ex)); auto).
      assert (gwf g2) as W2. { apply (gwf_filter (fun k => negb (NmemB k ex))); auto. intros x y A. f_equal. auto. }
      assert (In c (keys g2)) as Hc2. { rewrite K2, filter_In. split; auto. apply NmemB_false in Nc. rewrite Nc. auto. }
      assert (In (begin p g) (keys g1)) as Hb1. { rewrite K1, filter_In. split; [apply B; auto|]. apply NmemB_In. auto. }
      assert (g2 <> []) as NG2 by (intros Z; rewrite Z in Hc2; destruct Hc2).
      destruct g2 as [|e2 g2'] eqn:E2; [congruence|]. rewrite <- E2 in *. clear NG2.
      assert (forall x, In x (v :: order') -> NmemB x (keys g1) = NmemB x ex) as MX.
      { intros x Hx. apply (Permutation_in x PO) in Hx. destruct (NmemB x ex) eqn:Ex.
        - apply NmemB_In. rewrite K1, filter_In. auto.
        - apply NmemB_false. rewrite K1, filter_In. rewrite Ex. intros [_ H]; discriminate. }
      set (o1 := filter (fun x => NmemB x (keys g1)) (v :: order')) in *. set (o2 := filter (fun x => negb (NmemB x (keys g1))) (v :: order')) in *.
      assert (o1 = filter (fun k => NmemB k ex) (v :: order')) as O1 by (apply filter_ext_in; auto).
      assert (o2 = filter (fun k => negb (NmemB k ex)) (v :: order')) as O2. { apply filter_ext_in. intros x Hx. f_equal. auto. }
      assert (Permutation o1 (keys g1)) as P1. { rewrite O1, K1. apply perm_filter, PO. }
      assert (Permutation o2 (keys g2)) as P2. { rewrite O2, K2. apply perm_filter, PO. }
      assert (length o1 + length o2 = length (v :: order')) as LL.
      { rewrite O1, O2, <- app_length. apply Permutation_length, perm_split. }
      assert (o1 <> []) as N1. { intros Z. rewrite Z in P1. apply Permutation_nil in P1. rewrite P1 in Hb1. destruct Hb1. }
      assert (o2 <> []) as N2. { intros Z. rewrite Z in P2. apply Permutation_nil in P2. rewrite P2 in Hc2. destruct Hc2. }
      assert (length o1 <> 0 /\ length o2 <> 0) as [X1 X2] by (destruct o1, o2; try congruence; simpl; lia).
      assert (forall x y, adj g1 x y <-> inside (keys g1) x y) as A1.
      { intros x y. unfold inside. rewrite K1, !filter_In. split.
        - intros (nb & H1 & H2). unfold g1 in H1. rewrite (lookup_filter (fun k => NmemB k ex)) in H1. destruct (NmemB x ex) eqn:Ex; [|discriminate].
          assert (adj g x y) as A by (exists nb; auto). pose proof (proj1 (AD x y) A) as (Q1 & Q2 & Q3). rewrite <- (SE x y A). auto.
        - intros ((Q1 & Q2) & (Q3 & Q4) & Q5). apply (adj_filter (fun k => NmemB k ex)); auto. apply AD. repeat split; auto. }
      assert (forall x y, adj g2 x y <-> inside (keys g2) x y) as A2.
      { intros x y. unfold inside. rewrite K2, !filter_In. split.
        - intros (nb & H1 & H2). rewrite E2 in H1. rewrite <- E2 in H1. unfold g2 in H1. rewrite (lookup_filter (fun k => negb (NmemB k ex))) in H1. destruct (NmemB x ex) eqn:Ex; [discriminate|].
          assert (adj g x y) as A by (exists nb; auto). pose proof (proj1 (AD x y) A) as (Q1 & Q2 & Q3). rewrite <- (SE x y A), Ex. auto.
        - intros ((Q1 & Q2) & (Q3 & Q4) & Q5). apply (adj_filter (fun k => negb (NmemB k ex))); auto. apply AD. repeat split; auto. }
      destruct (VtreeFromGraph fuel begin (false :: p) g1 o1) as [tl| | |] eqn:ETL; try discriminate. cbn [bind] in RUN.
      destruct (VtreeFromGraph fuel begin (true :: p) g2 o2) as [tr| | |] eqn:ETR; try discriminate. cbn [bind] in RUN. injection RUN as <-.
      destruct (IH (false :: p) g1 o1 tl) as [PL1 S1]; auto; [constructor; auto; intros x y H; apply OO; apply (before_filter _ _ _ _ H)|lia|].
      destruct (IH (true :: p) g2 o2 tr) as [PL2 S2]; auto; [constructor; auto; intros x y H; apply OO; apply (before_filter _ _ _ _ H)|lia|].
      split; [simpl; rewrite PL1, PL2, K1, K2; apply perm_split|].
      intros l0 r0 H. inversion H; subst l0 r0 || subst; [|apply S1; auto|apply S2; auto].
      right. split.
      * intros a b' Ha Hb'. apply (conn_ext (keys g1)). { intros x. split; apply Permutation_in; [symmetry|]; exact PL1. }
        apply (Permutation_in _ PL1) in Ha. apply (Permutation_in _ PL1) in Hb'.
        assert (forall x, In x (keys g1) -> conn (keys g1) (begin p g) x) as Q.
        { intros x Hx. rewrite K1, filter_In in Hx. destruct Hx as [Hx Ex].
          apply (conn_sub (keys g) (keys g1) (fun k => NmemB k ex)).
          - intros y z I. apply SE, AD, I.
          - intros y Hy Ey. rewrite K1, filter_In. auto.
          - apply reach_conn; auto. apply RE, NmemB_In, Ex.
          - apply NmemB_In. auto. }
        eapply rt_trans; [apply conn_sym, Q; auto|apply Q; auto].
      * intros a b' Ha Hb' HE. apply (Permutation_in _ PL1) in Ha. apply (Permutation_in _ PL2) in Hb'.
        rewrite K1, filter_In in Ha. rewrite K2, filter_In in Hb'. destruct Ha as [Ha Ea], Hb' as [Hb' Eb].
        rewrite <- (SE a b'), Ea in Eb; [discriminate|]. apply AD. repeat split; auto.
Qed.
End R.

Section Net.
Context (scopes : list (list N)).
Definition shares (a b : N) : Prop := exists S, In S scopes /\ In a S /\ In b S /\ b <> a.
Lemma shares_sym a b : shares a b -> shares b a.
Proof. intros (S & H & A & B & D). exists S. auto. Qed.
Lemma linked_conn L a b : linked scopes L a b <-> conn shares L a b.
Proof.
  split.
  - induction 1 as [a b (Ha & Hb & S & HS & A & B)|a|a b c _ IH1 _ IH2]; [|apply rt_refl|eapply rt_trans; eauto].
    destruct (N.eq_dec b a) as [->|D]; [apply rt_refl|]. apply rt_step. split; auto. split; auto. exists S. auto.
  - induction 1 as [a b (Ha & Hb & S & HS & A & B & D)|a|a b c _ IH1 _ IH2]; [|apply rt_refl|eapply rt_trans; eauto].
    apply rt_step. split; auto. split; auto. exists S. auto.
Qed.
Lemma before_rev o a b : before (rev o) a b -> before o b a.
Proof.
  intros (x & y & H & Hb). apply (f_equal (@rev N)) in H. rewrite rev_involutive, rev_app_distr in H. simpl in H. rewrite <- app_assoc in H. simpl in H.
  apply in_rev in Hb. apply in_split in Hb as (y1 & y2 & Hb). rewrite Hb, <- app_assoc in H. simpl in H. exists y1, (y2 ++ a :: rev x). split; auto. apply in_or_app. simpl. auto.
Qed.
Context (begin : path -> graph -> N) (ordering : list N) (n : nat).
Context (B : forall p g, g <> [] -> In (begin p g) (keys g)) (PO : Permutation ordering (range n)) (N0 : n <> 0) (F : Forall (fun S => incl S (range n)) scopes).
Lemma minfill_split_ok t : MinFillVtree begin ordering n scopes = Ok t -> Permutation (leaves t) (range n) /\ split_ok shares (rev ordering) t.
Proof.
  intros RUN. destruct (network_graph_spec n scopes F) as (K & W & A). rewrite <- K.
  eapply (vtree_splits shares shares_sym (rev ordering) begin B (S (length ordering)) [] (network_graph n scopes) (rev ordering)); auto.
  - constructor; auto.
    + intros a b. rewrite A. unfold inside, shares. split; [|tauto]. intros H. split; [|split; [|exact H]]; destruct H as (S & HS & Ha & Hb & _);
        rewrite Forall_forall in F; rewrite K; apply (F S); auto.
    + rewrite K, <- Permutation_rev. exact PO.
  - intros Z. apply (f_equal (@length N)) in Z. rewrite rev_length, (Permutation_length PO) in Z. unfold range in Z. rewrite map_length, seq_length in Z. simpl in Z. lia.
  - rewrite rev_length. lia.
Qed.
Theorem minfill_splits t : MinFillVtree begin ordering n scopes = Ok t -> forall l r, subvtree (VNode l r) t ->
  (all_linked scopes (leaves (VNode l r)) /\ exists v, l = Leaf v /\ forall w, In w (leaves r) -> before ordering w v) \/
  (all_linked scopes (leaves l) /\ forall S u w, In S scopes -> In u S -> In w S -> In u (leaves l) -> ~ In w (leaves r)).
Proof.
  intros RUN l r H. destruct (minfill_split_ok t RUN) as [PL SO].
  destruct (SO l r H) as [[C (v & E & O)]|[C D]]; [left|right]; (split; [intros u w Hu Hw; apply linked_conn; auto|]).
  - exists v. split; auto. intros w Hw. apply before_rev. auto.
  - intros S u w HS Su Sw Hu Hw. apply (D u w Hu Hw). exists S. repeat split; auto. intros ->.
    assert (NoDup (leaves t)) as ND by (apply (Permutation_NoDup (Permutation_sym PL)), range_nodup).
    clear -ND H Hu Hw. induction t as [v|t1 IH1 t2 IH2]; inversion H; subst; simpl in ND.
    + apply in_split in Hu as (x & y & Hu). rewrite Hu, <- app_assoc in ND. simpl in ND. apply NoDup_remove_2 in ND. apply ND, in_or_app. right. apply in_or_app. auto.
    + apply IH1; auto. clear -ND. induction (leaves t1) as [|x l1 IH]; constructor; inversion ND; subst; auto. intros K. apply H1, in_or_app. auto.
    + apply IH2; auto. clear -ND. induction (leaves t1) as [|x l1 IH]; auto. inversion ND; subst; auto.
Qed.
Lemma NoDup_app_l {A} (a b : list A) : NoDup (a ++ b) -> NoDup a.
Proof. induction a as [|x a IH]; intros H; constructor; inversion H; subst; auto. intros K. apply H2, in_or_app. auto. Qed.
Lemma NoDup_app_r {A} (a b : list A) : NoDup (a ++ b) -> NoDup b.
Proof. induction a as [|x a IH]; intros H; auto. inversion H; subst; auto. Qed.
Lemma NoDup_app_no {A} (a b : list A) x : NoDup (a ++ b) -> In x a -> ~ In x b.
Proof. intros ND Ha Hb. apply in_split in Ha as (c & d & ->). rewrite <- app_assoc in ND. simpl in ND. apply NoDup_remove_2 in ND. apply ND, in_or_app. right. apply in_or_app. auto. Qed.
Lemma sub_trans a b c : subvtree a b -> subvtree b c -> subvtree a c.
Proof. intros H K. induction K; auto; [apply sub_left|apply sub_right]; auto. Qed.
Lemma sub_nodup s t : subvtree s t -> NoDup (leaves t) -> NoDup (leaves s).
Proof. induction 1; simpl; intros ND; auto; apply IHsubvtree; [eapply NoDup_app_l|eapply NoDup_app_r]; eauto. Qed.
Theorem minfill_components t : MinFillVtree begin ordering n scopes = Ok t -> forall s u, subvtree s t -> In u (leaves s) ->
  exists c, subvtree c s /\ forall v, In v (leaves c) <-> In v (leaves s) /\ linked scopes (leaves s) u v.
Proof.
  intros RUN. destruct (minfill_split_ok t RUN) as [PL SO].
  assert (NoDup (leaves t)) as ND by (apply (Permutation_NoDup (Permutation_sym PL)), range_nodup).
  induction s as [x|l IHl r IHr]; intros u HS Hu.
  - exists (Leaf x). split; [apply sub_here|]. intros v. split; [|tauto]. intros Hv. split; auto. destruct Hu as [<-|[]], Hv as [<-|[]]. apply rt_refl.
  - pose proof (sub_nodup _ _ HS ND) as NS. simpl in NS. destruct (SO l r HS) as [[C _]|[C D]].
    + exists (VNode l r). split; [apply sub_here|]. intros v. split; [|tauto]. intros Hv. split; auto. apply linked_conn. auto.
    + assert (forall x y, inside shares (leaves (VNode l r)) x y -> NmemB x (leaves l) = NmemB y (leaves l)) as CL.
      { intros x y (Hx & Hy & Sxy). simpl in Hx, Hy. apply in_app_or in Hx. apply in_app_or in Hy.
        destruct (NmemB x (leaves l)) eqn:Ex; symmetry.
        - apply NmemB_In in Ex. apply NmemB_In. destruct Hy as [Hy|Hy]; auto. destruct (D x y Ex Hy Sxy).
        - apply NmemB_false in Ex. apply NmemB_false. intros Hy'. destruct Hx as [Hx|Hx]; auto. apply (D y x Hy' Hx). apply shares_sym, Sxy. }
      simpl in Hu. apply in_app_or in Hu as [Hu|Hu].
      * exists l. split; [apply sub_left, sub_here|]. intros v. split.
        -- intros Hv. split; [simpl; apply in_or_app; auto|]. apply linked_conn. apply (conn_incl _ (leaves l)); auto. simpl. intros x Hx. apply in_or_app. auto.
        -- intros [Hv Lv]. apply linked_conn in Lv. apply NmemB_In. rewrite <- (conn_closed shares _ (fun k => NmemB k (leaves l)) u v CL Lv). apply NmemB_In. auto.
      * destruct (IHr u) as (c & Sc & Hc); auto; [apply (sub_trans r (VNode l r)); auto; apply sub_right, sub_here|].
        exists c. split; [apply sub_right; auto|]. intros v. rewrite Hc. simpl. rewrite in_app_iff, !linked_conn. split.
        -- intros [Hv Cv]. split; auto. apply (conn_incl _ (leaves r)); auto. intros x Hx. apply in_or_app. auto.
        -- intros [Hv Cv]. assert (negb (NmemB u (leaves l)) = true) as Nu.
           { apply negb_true_iff, NmemB_false. intros K. apply (NoDup_app_no _ _ u NS); auto. }
           assert (forall x y, inside shares (leaves (VNode l r)) x y -> negb (NmemB x (leaves l)) = negb (NmemB y (leaves l))) as CL' by (intros x y I; f_equal; auto).
           split.
           ++ destruct Hv as [Hv|Hv]; auto. rewrite (conn_closed shares _ (fun k => negb (NmemB k (leaves l))) u v CL' Cv) in Nu. apply negb_true_iff, NmemB_false in Nu. contradiction.
           ++ apply (conn_sub shares (leaves (VNode l r)) (leaves r) (fun k => negb (NmemB k (leaves l)))); auto.
              intros x Hx Ex. simpl in Hx. apply in_app_or in Hx as [Hx|Hx]; auto. apply negb_true_iff, NmemB_false in Ex. contradiction.
Qed.
End Net.
