(** Proofs about the constructions of vtrees. *)
From Verif Require Import Base Vtree PgmLayout VtreeGen.

(** ** Right-linear layouts *)
Lemma rl_none S t : (forall v, In v (leaves t) -> ~ In v S) -> right_linear S t.
Proof.
  induction t as [v|l IHl r IHr]; intros H; simpl in *; auto.
  left. split; [|apply IHr]; intros; apply H, in_or_app; auto.
Qed.
Lemma rl_leaf S x t : right_linear S t -> right_linear S (VNode (Leaf x) t).
Proof.
  intros H. simpl. destruct (in_dec N.eq_dec x S) as [I|I].
  - right. right. split; auto. exists [], x, []. simpl. split; auto.
  - left. split; auto. simpl. intros v [<-|[]]; auto.
Qed.
Lemma rl_left S l r : (forall v, In v (leaves r) -> ~ In v S) -> right_linear S l -> right_linear S (VNode l r).
Proof. simpl; auto. Qed.
Lemma rl_right S l r : (forall v, In v (leaves l) -> ~ In v S) -> right_linear S r -> right_linear S (VNode l r).
Proof. simpl; auto. Qed.
Lemma rl_ext S S' t : (forall v, In v (leaves t) -> (In v S <-> In v S')) -> right_linear S t -> right_linear S' t.
Proof.
  induction t as [v|l IHl r IHr]; intros E H; simpl in *; auto.
  assert (forall v, In v (leaves l) -> (In v S <-> In v S')) as El by (intros; apply E, in_or_app; auto).
  assert (forall v, In v (leaves r) -> (In v S <-> In v S')) as Er by (intros; apply E, in_or_app; auto).
  destruct H as [[H1 H2]|[[H1 H2]|[(a & v & b & E1 & H1 & H3) H2]]].
  - left. split; auto. intros v Hv. rewrite <- El; auto.
  - right. left. split; auto. intros v Hv. rewrite <- Er; auto.
  - right. right. split; auto. exists a, v, b. split; auto. rewrite E1 in El. split.
    + apply El; auto. apply in_or_app; simpl; auto.
    + intros w Hw. rewrite <- El; auto. apply in_or_app. simpl. apply in_app_or in Hw as [?|?]; auto.
Qed.
Lemma chain_leaves vs : forall t, Permutation (leaves (chain vs t)) (vs ++ leaves t).
Proof.
  induction vs as [|v vs IH]; intros t; simpl; auto. unfold chain in *. rewrite IH. simpl. apply Permutation_sym, Permutation_middle.
Qed.
Lemma rl_chain S vs : forall t, right_linear S t -> right_linear S (chain vs t).
Proof. induction vs as [|v vs IH]; intros t H; simpl; auto. apply IH, rl_leaf, H. Qed.

(** ** Graphs *)
Definition adj (g : graph) (a b : N) : Prop := exists nb, Nlookup a g = Some nb /\ In b nb.
Record gwf (g : graph) : Prop := {
  g_keys : NoDup (keys g);
  g_sets : forall a nb, Nlookup a g = Some nb -> NoDup nb;
  g_sym : forall a b, adj g a b -> adj g b a;
  g_irr : forall a, ~ adj g a a;
}.
Lemma lookup_In (g : graph) a nb : Nlookup a g = Some nb -> In (a, nb) g.
Proof.
  induction g as [|[k v] g IH]; cbn; [discriminate|]. unfold Nlookup in *. destruct (N.eqb_spec a k).
  - intros [= ->]. subst. auto.
  - auto.
Qed.
Lemma In_lookup (g : graph) a nb : NoDup (keys g) -> In (a, nb) g -> Nlookup a g = Some nb.
Proof.
  induction g as [|[k v] g IH]; cbn; [tauto|]. intros ND H. apply NoDup_cons_iff in ND as [NI ND]. unfold Nlookup in *. destruct H as [[= -> ->]|H].
  - rewrite N.eqb_refl. reflexivity.
  - destruct (N.eqb_spec a k); auto. subst. exfalso. apply NI. apply in_map_iff. exists (k, nb). auto.
Qed.
Lemma lookup_key (g : graph) a : In a (keys g) <-> exists nb, Nlookup a g = Some nb.
Proof.
  split.
  - induction g as [|[k v] g IH]; cbn; [tauto|]. unfold Nlookup in *. destruct (N.eqb_spec a k); eauto. intros [->|H]; [congruence|auto].
  - intros [nb H]. apply lookup_In in H. apply in_map_iff. exists (a, nb). auto.
Qed.
Lemma adj_key g a b : gwf g -> adj g a b -> In a (keys g) /\ In b (keys g).
Proof. intros W H. split; apply lookup_key; [destruct H as (nb & H & _)|destruct (g_sym _ W _ _ H) as (nb & H' & _)]; eauto. Qed.

(** Keeping some of the vertices *)
Lemma keys_filter (f : N -> bool) (g : graph) : keys (filter (fun e => f (fst e)) g) = filter f (keys g).
Proof. unfold keys. induction g as [|[k v] g IH]; cbn; auto. destruct (f k); cbn; rewrite IH; auto. Qed.
Lemma lookup_filter (f : N -> bool) (g : graph) a : Nlookup a (filter (fun e => f (fst e)) g) = if f a then Nlookup a g else None.
Proof.
  unfold Nlookup. induction g as [|[k v] g IH]; cbn; [destruct (f a); auto|]. destruct (f k) eqn:E; cbn; destruct (N.eqb_spec a k); subst; auto.
  - rewrite E. auto.
  - rewrite IH, E. auto.
Qed.
Lemma gwf_filter (f : N -> bool) g : gwf g -> (forall a b, adj g a b -> f a = f b) -> gwf (filter (fun e => f (fst e)) g).
Proof.
  intros W H. assert (forall a b, adj (filter (fun e => f (fst e)) g) a b <-> f a = true /\ adj g a b) as A.
  { intros a b. unfold adj. rewrite lookup_filter. destruct (f a); split.
    - intros (nb & H1 & H2). split; eauto.
    - intros [_ H1]. auto.
    - intros (nb & H1 & _). discriminate.
    - intros [[=] _]. }
  constructor.
  - rewrite keys_filter. apply NoDup_filter, (g_keys _ W).
  - intros a nb. rewrite lookup_filter. destruct (f a); [apply (g_sets _ W)|discriminate].
  - intros a b. rewrite !A. intros [H1 H2]. rewrite <- (H a b); auto. split; auto. apply (g_sym _ W), H2.
  - intros a. rewrite A. intros [_ H1]. exact (g_irr _ W a H1).
Qed.
Lemma adj_filter (f : N -> bool) g a b : adj g a b -> f a = true -> adj (filter (fun e => f (fst e)) g) a b.
Proof. intros (nb & H & I) E. exists nb. rewrite lookup_filter, E. auto. Qed.

(** ** ConnectedGraph *)
Lemma push_spec nbrs : forall ex st, NoDup ex -> incl st ex ->
  exists new, fold_left dfs_push nbrs (ex, st) = (new ++ ex, new ++ st) /\ NoDup (new ++ ex) /\ incl nbrs (new ++ ex) /\ incl new nbrs.
Proof.
  induction nbrs as [|v nbrs IH]; intros ex st ND I; simpl.
  - exists []. simpl. repeat split; auto; intros ? [].
  - unfold dfs_push at 2. simpl. destruct (NmemB v ex) eqn:E.
    + destruct (IH ex st ND I) as (new & E1 & N1 & I1 & I2). exists new. repeat split; auto.
      * intros w [<-|Hw]; [apply in_or_app; right; apply NmemB_In; auto|auto].
      * apply incl_tl. auto.
    + apply NmemB_false in E. destruct (IH (v :: ex) (v :: st)) as (new & E1 & N1 & I1 & I2).
      * constructor; auto.
      * intros w [<-|Hw]; simpl; auto.
      * exists (new ++ [v]). rewrite <- !app_assoc. simpl. repeat split; auto.
        -- intros w [<-|Hw]; [apply in_or_app; simpl; auto|auto].
        -- intros w Hw. apply in_app_or in Hw as [Hw|[<-|[]]]; simpl; auto.
Qed.
Lemma dfs_spec g (W : gwf g) : forall fuel ex st, NoDup ex -> NoDup st -> incl st ex -> incl ex (keys g) ->
  (forall a b, In a ex -> ~ In a st -> adj g a b -> In b ex) -> length g + length st <= length ex + fuel ->
  exists ex', dfs fuel g ex st = Ok ex' /\ NoDup ex' /\ incl ex ex' /\ incl ex' (keys g) /\ forall a b, In a ex' -> adj g a b -> In b ex'.
Proof.
  induction fuel as [|fuel IH]; intros ex st ND NS I K C L; destruct st as [|c st]; simpl.
  - exists ex. repeat split; auto. apply incl_refl. intros a b Ha Hb. eapply C; eauto.
  - exfalso. assert (length ex <= length (keys g)) as L' by (apply NoDup_incl_length; auto).
    unfold keys in L'. rewrite map_length in L'. simpl in L. lia.
  - exists ex. repeat split; auto. apply incl_refl. intros a b Ha Hb. eapply C; eauto.
  - destruct (proj1 (lookup_key g c)) as [nb Hnb]; [apply K, I; simpl; auto|]. rewrite Hnb. simpl.
    destruct (push_spec nb ex st) as (new & E & N1 & I1 & I2); auto.
    { intros v Hv. apply I. simpl; auto. }
    rewrite E. simpl. apply NoDup_cons_iff in NS as [NI NS].
    destruct (IH (new ++ ex) (new ++ st)) as (ex' & E' & N' & I' & K' & C'); auto.
    + clear IH E L. assert (forall v, In v st -> ~ In v new) as D.
      { intros v Hv Hn. apply in_split in Hn as (x & y & ->). rewrite <- app_assoc in N1. simpl in N1. apply NoDup_remove_2 in N1. apply N1.
        apply in_or_app. right. apply in_or_app. right. apply I. simpl; auto. }
      clear I1 I2 C. induction new as [|x new IHn]; simpl in *; auto. apply NoDup_cons_iff in N1 as [X1 N1]. constructor.
      * intros Hx. apply in_app_or in Hx as [Hx|Hx]; [apply X1, in_or_app; auto|]. apply (D x); auto.
      * apply IHn; auto. intros v Hv Hn. apply (D v); auto.
    + intros v Hv. apply in_app_or in Hv as [Hv|Hv]; apply in_or_app; auto. right. apply I. simpl; auto.
    + intros v Hv. apply in_app_or in Hv as [Hv|Hv]; auto.
      destruct (adj_key g c v W) as [_ H]; auto. exists nb. auto.
    + intros a b Ha NA AB. destruct (N.eq_dec a c) as [->|NC].
      * destruct AB as (nb' & H1 & H2). rewrite Hnb in H1. injection H1 as <-. auto.
      * apply in_or_app. right. apply (C a b); auto.
        -- apply in_app_or in Ha as [Ha|Ha]; auto. exfalso. apply NA, in_or_app. auto.
        -- intros [<-|H]; auto. apply NA, in_or_app. auto.
    + rewrite !app_length. simpl in L. lia.
    + exists ex'. repeat split; auto. intros v Hv. apply I', in_or_app. auto.
Qed.
Lemma connected_spec g b : gwf g -> In b (keys g) ->
  ConnectedGraph g b = Ok (g, []) \/
  exists ex, ConnectedGraph g b = Ok (filter (fun e => NmemB (fst e) ex) g, filter (fun e => negb (NmemB (fst e) ex)) g) /\
    In b ex /\ (exists c, In c (keys g) /\ ~ In c ex) /\ (forall x y, adj g x y -> NmemB x ex = NmemB y ex).
Proof.
  intros W Hb. unfold ConnectedGraph.
  assert (length g <> 0) as L0. { destruct g; simpl in *; [tauto|lia]. }
  destruct (Nat.eqb_spec (length g) 0) as [|_]; [contradiction|]. simpl.
  destruct (dfs_spec g W (length g) [b] [b]) as (ex & E & ND & I & K & C).
  - constructor; [intros []|constructor].
  - constructor; [intros []|constructor].
  - apply incl_refl.
  - intros v [<-|[]]. exact Hb.
  - intros a c Ha NA. exfalso; auto.
  - simpl. lia.
  - rewrite E. simpl. destruct (Nat.eqb_spec (length ex) (length g)) as [EL|NL]; auto. right. exists ex. split; auto.
    assert (In b ex) by (apply I; simpl; auto). split; auto. split.
    + destruct (in_dec bool_dec true (map (fun k => negb (NmemB k ex)) (keys g))) as [H1|H1].
      * apply in_map_iff in H1 as (c & H1 & H2). exists c. split; auto. apply negb_true_iff, NmemB_false in H1. auto.
      * exfalso. apply NL. assert (incl (keys g) ex) as K2.
        { intros c Hc. destruct (NmemB c ex) eqn:Ec; [apply NmemB_In; auto|]. exfalso. apply H1, in_map_iff. exists c. rewrite Ec. auto. }
        apply Nat.le_antisymm.
        -- rewrite <- (map_length fst g). apply NoDup_incl_length; auto.
        -- rewrite <- (map_length fst g). apply NoDup_incl_length; auto. apply (g_keys _ W).
    + intros x y A. destruct (NmemB x ex) eqn:Ex; symmetry.
      * apply NmemB_In. apply NmemB_In in Ex. eauto.
      * apply NmemB_false in Ex. apply NmemB_false. intros Hy. apply Ex. apply (C y x); auto. apply (g_sym _ W), A.
Qed.

(** ** RemoveNode *)
Lemma lookup_map (h : N -> list N -> list N) (c : N -> bool) (g : graph) a :
  Nlookup a (map (fun e => if c (fst e) then (fst e, h (fst e) (snd e)) else e) g) = option_map (if c a then h a else fun nb => nb) (Nlookup a g).
Proof.
  unfold Nlookup. induction g as [|[k v] g IH]; cbn; auto.
  destruct (c k) eqn:E; cbn; destruct (N.eqb_spec a k); subst; cbn; rewrite ?E; auto.
Qed.
Lemma keys_map (h : N * list N -> list N) (c : N -> bool) (g : graph) : keys (map (fun e => if c (fst e) then (fst e, h e) else e) g) = keys g.
Proof. unfold keys. rewrite map_map. apply map_ext. intros [k v]. cbn. destruct (c k); auto. Qed.
Definition without (v : N) (l : list N) : list N := filter (fun x => negb (N.eqb x v)) l.
Lemma In_without v l x : In x (without v l) <-> In x l /\ x <> v.
Proof. unfold without. rewrite filter_In, negb_true_iff, N.eqb_neq. tauto. Qed.
Lemma rm_spec v : forall nbrs g, NoDup nbrs -> (forall w, In w nbrs -> w <> v /\ exists nn, Nlookup w g = Some nn /\ In v nn) ->
  exists g', foldM (rm_nbr v) nbrs g = Ok g' /\ keys g' = keys g /\
    forall a, Nlookup a g' = option_map (if NmemB a nbrs then without v else fun nb => nb) (Nlookup a g).
Proof.
  induction nbrs as [|w nbrs IH]; intros g ND H.
  - exists g. cbn. repeat split; auto. intros a. destruct (Nlookup a g); auto.
  - apply NoDup_cons_iff in ND as [NI ND]. cbn [foldM]. destruct (H w) as (NW & nn & Hn & Hv); [simpl; auto|].
    unfold rm_nbr at 1. destruct (N.eqb_spec w v) as [|_]; [contradiction|]. rewrite Hn. apply NmemB_In in Hv. rewrite Hv. cbn [assert bind].
    set (g1 := map _ g). assert (forall a, Nlookup a g1 = option_map (if N.eqb a w then without v else fun nb => nb) (Nlookup a g)) as L1.
    { intros a. apply (lookup_map (fun _ => without v) (fun k => N.eqb k w)). }
    destruct (IH g1) as (g' & E & K & L); auto.
    { intros x Hx. destruct (H x) as (NX & nx & Hnx & Hvx); [simpl; auto|]. split; auto. exists nx. split; auto.
      rewrite L1, Hnx. destruct (N.eqb_spec x w); [subst; contradiction|auto]. }
    exists g'. split; auto. split. { rewrite K. apply (keys_map (fun e => without v (snd e)) (fun k => N.eqb k w)). }
    intros a. rewrite L, L1. cbn. destruct (N.eqb_spec a w) as [->|NE]; cbn.
    + destruct (NmemB w nbrs) eqn:Ew; [apply NmemB_In in Ew; contradiction|]. destruct (Nlookup w g); auto.
    + destruct (Nlookup a g); cbn; auto.
Qed.
Lemma remove_spec g v : gwf g -> In v (keys g) -> exists g', RemoveNode g v = Ok g' /\ gwf g' /\ keys g' = without v (keys g) /\
  forall a b, adj g' a b <-> adj g a b /\ a <> v /\ b <> v.
Proof.
  intros W Hv. unfold RemoveNode. rewrite (proj2 (NmemB_In v (keys g)) Hv). cbn [assert bind].
  destruct (proj1 (lookup_key g v) Hv) as [nb Hnb]. rewrite Hnb. cbn [get bind].
  destruct (rm_spec v nb g) as (g1 & E & K & L).
  - apply (g_sets _ W _ _ Hnb).
  - intros w Hw. split.
    + intros ->. apply (g_irr _ W v). exists nb. auto.
    + apply (g_sym _ W). exists nb. auto.
  - rewrite E. cbn [bind].
    assert (forall a b, adj (filter (fun e => negb (N.eqb (fst e) v)) g1) a b <-> adj g a b /\ a <> v /\ b <> v) as A.
    { intros a b. unfold adj. rewrite (lookup_filter (fun k => negb (N.eqb k v))), L. destruct (N.eqb_spec a v) as [->|NA]; cbn.
      - split; [intros (x & H & _); discriminate|tauto].
      - split.
        + intros (x & H1 & H2). destruct (Nlookup a g) as [na|] eqn:Ea; [|discriminate]. cbn in H1. injection H1 as <-.
          destruct (NmemB a nb) eqn:Em.
          * apply In_without in H2 as [H2 H3]. split; eauto.
          * split; eauto. split; auto. intros ->. apply NmemB_false in Em. apply Em.
            destruct (g_sym _ W a v) as (nb' & H3 & H4); [exists na; auto|]. rewrite Hnb in H3. injection H3 as <-. auto.
        + intros ((na & H1 & H2) & _ & NB). rewrite H1. cbn. eexists. split; eauto. destruct (NmemB a nb); auto. apply In_without. auto. }
    eexists. split; [reflexivity|]. split; [|split; auto].
    + constructor.
      * rewrite (keys_filter (fun k => negb (N.eqb k v))), K. apply NoDup_filter, (g_keys _ W).
      * intros a na. rewrite (lookup_filter (fun k => negb (N.eqb k v))), L. destruct (negb (N.eqb a v)); [|discriminate].
        destruct (Nlookup a g) as [x|] eqn:Ea; [|discriminate]. cbn. intros [= <-]. pose proof (g_sets _ W _ _ Ea).
        destruct (NmemB a nb); auto. apply NoDup_filter; auto.
      * intros a b. rewrite !A. intros (H & NA & NB). split; auto. apply (g_sym _ W), H.
      * intros a. rewrite A. intros [H _]. exact (g_irr _ W a H).
    + rewrite (keys_filter (fun k => negb (N.eqb k v))), K. reflexivity.
Qed.

(** ** VtreeFromGraph *)
Lemma perm_filter {A} (f : A -> bool) l l' : Permutation l l' -> Permutation (filter f l) (filter f l').
Proof.
  induction 1 as [|x l l' P IH|x y l|l1 l2 l3 P1 IH1 P2 IH2]; simpl; auto.
  - destruct (f x); auto.
  - destruct (f x), (f y); auto. apply perm_swap.
  - rewrite IH1; auto.
Qed.
Lemma perm_split {A} (f : A -> bool) l : Permutation (filter f l ++ filter (fun x => negb (f x)) l) l.
Proof. induction l as [|x l IH]; simpl; auto. destruct (f x); simpl; rewrite <- ?Permutation_middle; auto. Qed.
Lemma NmemB_ext l l' : (forall v, In v l <-> In v l') -> forall v, NmemB v l = NmemB v l'.
Proof.
  intros H v. destruct (NmemB v l) eqn:E; symmetry.
  - apply NmemB_In, H, NmemB_In. auto.
  - apply NmemB_false. rewrite <- H. apply NmemB_false. auto.
Qed.
(** The variables of [S] that are left are pairwise adjacent *)
Definition clique (g : graph) (S : list N) : Prop := forall a b, In a S -> In b S -> In a (keys g) -> In b (keys g) -> a <> b -> adj g a b.
Theorem vtree_from_graph begin : (forall p g, g <> [] -> In (begin p g) (keys g)) -> forall fuel p g order, gwf g -> Permutation order (keys g) -> order <> [] ->
  length order <= S fuel ->
  exists t, VtreeFromGraph fuel begin p g order = Ok t /\ Permutation (leaves t) (keys g) /\ forall S, clique g S -> right_linear S t.
Proof.
  intros B. induction fuel as [|fuel IH]; intros p g order W PO NE L.
  - destruct order as [|v [|w order]]; [contradiction| |simpl in L; lia]. exists (Leaf v). repeat split; auto.
  - destruct order as [|v order']; [contradiction|]. destruct order' as [|w order''].
    { exists (Leaf v). simpl. repeat split; auto. }
    remember (w :: order'') as order' eqn:EO. assert (g <> []) as NG.
    { intros ->. simpl in PO. apply Permutation_sym, Permutation_nil in PO. discriminate. }
    assert (VtreeFromGraph (S fuel) begin p g (v :: order') =
      do (g1, g2) <- ConnectedGraph g (begin p g) ;;
      match g2 with
      | [] => do r <- RemoveNode g1 v ;; do t <- VtreeFromGraph fuel begin (true :: p) r order' ;; Ok (VNode (Leaf v) t)
      | _ =>
          do l <- VtreeFromGraph fuel begin (false :: p) g1 (filter (fun v => NmemB v (keys g1)) (v :: order')) ;;
          do r <- VtreeFromGraph fuel begin (true :: p) g2 (filter (fun v => negb (NmemB v (keys g1))) (v :: order')) ;;
          Ok (VNode l r)
      end) as -> by (subst order'; reflexivity).
    destruct (connected_spec g (begin p g) W (B p g NG)) as [->|(ex & -> & Hb & (c & Hc & Nc) & SE)]; cbn [bind].
    + assert (In v (keys g)) as Kv by (apply (Permutation_in v PO); simpl; auto).
      destruct (remove_spec g v W Kv) as (r & -> & WR & KR & AR). cbn [bind].
      assert (NoDup (v :: order')) as NDo by (apply (Permutation_NoDup (Permutation_sym PO)), (g_keys _ W)). apply NoDup_cons_iff in NDo as [Nv NDo].
      assert (without v (v :: order') = order') as EW.
      { unfold without. cbn [filter]. rewrite N.eqb_refl. cbn [negb].
        clear -Nv. induction order' as [|x l IHl]; cbn; auto. destruct (N.eqb_spec x v) as [->|]; cbn; [exfalso; apply Nv; simpl; auto|].
        rewrite IHl; auto. intros H. apply Nv. simpl; auto. }
      assert (Permutation order' (keys r)) as PO'. { rewrite KR, <- EW at 1. unfold without. apply perm_filter. exact PO. }
      destruct (IH (true :: p) r order') as (t & -> & PL & RL); auto; [subst; discriminate|simpl in L; lia|].
      cbn [bind]. exists (VNode (Leaf v) t). split; auto. split.
      * simpl. rewrite PL, <- PO'. exact PO.
      * intros S CS. apply rl_leaf, RL. intros a b Ha Hb Ka Kb NEQ. rewrite KR in Ka, Kb. apply In_without in Ka as [Ka NA]. apply In_without in Kb as [Kb NB].
        apply AR. split; auto.
    + set (g1 := filter (fun e => NmemB (fst e) ex) g). set (g2 := filter (fun e => negb (NmemB (fst e) ex)) g).
      assert (keys g1 = filter (fun k => NmemB k ex) (keys g)) as K1 by apply (keys_filter (fun k => NmemB k ex)).
      assert (keys g2 = filter (fun k => negb (NmemB k ex)) (keys g)) as K2 by apply (keys_filter (fun k => negb (NmemB k ex))).
      assert (gwf g1) as W1 by (apply (gwf_filter (fun k => NmemB k ex)); auto).
      assert (gwf g2) as W2. { apply (gwf_filter (fun k => negb (NmemB k ex))); auto. intros x y A. f_equal. auto. }
      assert (In c (keys g2)) as Hc2. { rewrite K2, filter_In. split; auto. apply NmemB_false in Nc. rewrite Nc. auto. }
      assert (In (begin p g) (keys g1)) as Hb1. { rewrite K1, filter_In. split; [apply B; auto|]. apply NmemB_In. auto. }
      assert (g2 <> []) as NG2 by (intros Z; rewrite Z in Hc2; destruct Hc2).
      destruct g2 as [|e2 g2'] eqn:E2; [congruence|]. rewrite <- E2 in *. clear NG2.
      assert (forall x, In x (v :: order') -> NmemB x (keys g1) = NmemB x ex) as MX.
      { intros x Hx. apply (Permutation_in x PO) in Hx. destruct (NmemB x ex) eqn:Ex.
        - apply NmemB_In. rewrite K1, filter_In. auto.
        - apply NmemB_false. rewrite K1, filter_In. rewrite Ex. intros [_ H]; discriminate. }
      set (o1 := filter (fun x => NmemB x (keys g1)) (v :: order')). set (o2 := filter (fun x => negb (NmemB x (keys g1))) (v :: order')).
      assert (o1 = filter (fun k => NmemB k ex) (v :: order')) as O1 by (apply filter_ext_in; auto).
      assert (o2 = filter (fun k => negb (NmemB k ex)) (v :: order')) as O2. { apply filter_ext_in. intros x Hx. f_equal. auto. }
      assert (Permutation o1 (keys g1)) as P1. { rewrite O1, K1. apply perm_filter, PO. }
      assert (Permutation o2 (keys g2)) as P2. { rewrite O2, K2. apply perm_filter, PO. }
      assert (length o1 + length o2 = length (v :: order')) as LL.
      { rewrite O1, O2, <- app_length. apply Permutation_length, perm_split. }
      assert (o1 <> []) as N1. { intros Z. rewrite Z in P1. apply Permutation_nil in P1. rewrite P1 in Hb1. destruct Hb1. }
      assert (o2 <> []) as N2. { intros Z. rewrite Z in P2. apply Permutation_nil in P2. rewrite P2 in Hc2. destruct Hc2. }
      assert (length o1 <> 0 /\ length o2 <> 0) as [X1 X2] by (destruct o1, o2; try congruence; simpl; lia).
      destruct (IH (false :: p) g1 o1) as (tl & -> & PL1 & RL1); auto; [lia|]. cbn [bind].
      destruct (IH (true :: p) g2 o2) as (tr & -> & PL2 & RL2); auto; [lia|]. cbn [bind].
      exists (VNode tl tr). split; auto. split.
      * simpl. rewrite PL1, PL2, K1, K2. apply perm_split.
      * intros S CS.
        assert (clique g1 S) as C1.
        { intros a b Ha Hb' Ka Kb NEQ. rewrite K1, filter_In in Ka, Kb. apply (adj_filter (fun k => NmemB k ex)); [apply CS; tauto|tauto]. }
        assert (clique g2 S) as C2.
        { intros a b Ha Hb' Ka Kb NEQ. rewrite K2, filter_In in Ka, Kb. apply (adj_filter (fun k => negb (NmemB k ex))); [apply CS; tauto|tauto]. }
        destruct (existsb (fun k => NmemB k S) (keys g1)) eqn:EX.
        -- apply existsb_exists in EX as (a & Ka & Ha). apply NmemB_In in Ha. apply rl_left; auto.
           intros b Hb' HbS. apply (Permutation_in b PL2) in Hb'. rewrite K1, filter_In in Ka. rewrite K2, filter_In in Hb'.
           destruct Ka as [Ka Ea], Hb' as [Kb Eb]. assert (a <> b) as NEQ by (intros ->; rewrite Ea in Eb; discriminate).
           pose proof (SE a b (CS a b Ha HbS Ka Kb NEQ)) as EQ. rewrite Ea in EQ. rewrite <- EQ in Eb. discriminate.
        -- apply rl_right; auto. intros a Ha HaS. apply (Permutation_in a PL1) in Ha.
           assert (existsb (fun k => NmemB k S) (keys g1) = true) as EY; [|congruence].
           apply existsb_exists. exists a. split; auto. apply NmemB_In. auto.
Qed.

(** ** The graph of a network *)
Lemma add_nbrs_spec vi : forall scope nb, (forall x, In x (add_nbrs scope vi nb) <-> In x nb \/ (In x scope /\ x <> vi)) /\ (NoDup nb -> NoDup (add_nbrs scope vi nb)).
Proof.
  unfold add_nbrs. induction scope as [|v scope IH]; intros nb; simpl; [tauto|].
  destruct (N.eqb_spec v vi) as [->|NE].
  - destruct (IH nb) as [I1 I2]. split; auto. intros x. rewrite I1. split; [tauto|]. intros [?|[[<-|?] ?]]; tauto.
  - destruct (NmemB v nb) eqn:E.
    + apply NmemB_In in E. destruct (IH nb) as [I1 I2]. split; auto. intros x. rewrite I1. split; [tauto|]. intros [?|[[<-|?] ?]]; tauto.
    + apply NmemB_false in E. destruct (IH (v :: nb)) as [I1 I2]. split.
      * intros x. rewrite I1. simpl. split; [|tauto]. intros [[<-|?]|?]; tauto.
      * intros ND. apply I2. constructor; auto.
Qed.
Record gpre (ks : list N) (g : graph) : Prop := {
  gp_keys : keys g = ks;
  gp_sets : forall a nb, Nlookup a g = Some nb -> NoDup nb;
}.
Lemma add_vertex_spec ks scope g vi : gpre ks g -> In vi ks -> gpre ks (add_vertex scope g vi) /\
  forall a b, adj (add_vertex scope g vi) a b <-> adj g a b \/ (a = vi /\ In b scope /\ b <> a).
Proof.
  intros [K S] I. unfold add_vertex. rewrite <- K in I. destruct (proj1 (lookup_key g vi) I) as [nv Hv]. rewrite Hv.
  pose proof (fun a => lookup_map (add_nbrs scope) (fun k => N.eqb k vi) g a) as L. cbv beta in L.
  assert (map (fun e : N * list N => if N.eqb (fst e) vi then (fst e, add_nbrs scope vi (snd e)) else e) g =
          map (fun e : N * list N => if N.eqb (fst e) vi then (fst e, add_nbrs scope (fst e) (snd e)) else e) g) as EM.
  { apply map_ext. intros [k nb]. cbn. destruct (N.eqb_spec k vi); subst; auto. }
  rewrite EM. split; [constructor|].
  - rewrite <- K. apply (keys_map (fun e => add_nbrs scope (fst e) (snd e)) (fun k => N.eqb k vi)).
  - intros a nb. rewrite L. destruct (Nlookup a g) as [na|] eqn:Ea; [|discriminate]. cbn. intros [= <-]. destruct (N.eqb a vi); eauto. apply add_nbrs_spec. eauto.
  - intros a b. unfold adj. rewrite L. destruct (N.eqb_spec a vi) as [->|NE].
    + rewrite Hv. cbn. split.
      * intros (x & [= <-] & H). apply add_nbrs_spec in H as [H|[H1 H2]]; eauto.
      * intros H. eexists. split; [reflexivity|]. apply add_nbrs_spec. destruct H as [(x & [= <-] & H)|(_ & H1 & H2)]; auto.
    + destruct (Nlookup a g) as [na|]; cbn; split.
      * intros H. left. exact H.
      * intros [H|[H _]]; [exact H|contradiction].
      * intros (x & [=] & _).
      * intros [(x & [=] & _)|[H _]]; contradiction.
Qed.
Lemma add_scope_spec ks scope : forall l g, gpre ks g -> incl l ks -> gpre ks (fold_left (add_vertex scope) l g) /\
  forall a b, adj (fold_left (add_vertex scope) l g) a b <-> adj g a b \/ (In a l /\ In b scope /\ b <> a).
Proof.
  induction l as [|v l IH]; intros g G I; simpl.
  - split; auto. intros a b. tauto.
  - destruct (add_vertex_spec ks scope g v G) as [G1 A1]; [apply I; simpl; auto|].
    destruct (IH (add_vertex scope g v) G1) as [G2 A2]; [intros x Hx; apply I; simpl; auto|]. split; auto.
    intros a b. rewrite A2, A1. split; [intros [[H|(-> & H)]|H]; intuition auto|intros [H|[[<-|H] H']]; intuition auto].
Qed.
Lemma add_scopes_spec ks : forall scopes g, gpre ks g -> Forall (fun S => incl S ks) scopes ->
  gpre ks (fold_left (fun g scope => fold_left (add_vertex scope) scope g) scopes g) /\
  forall a b, adj (fold_left (fun g scope => fold_left (add_vertex scope) scope g) scopes g) a b <->
    adj g a b \/ exists S, In S scopes /\ In a S /\ In b S /\ b <> a.
Proof.
  induction scopes as [|S scopes IH]; intros g G F; simpl.
  - split; auto. intros a b. split; auto. intros [H|(S & [] & _)]; auto.
  - apply Forall_cons_iff in F as [F1 F]. destruct (add_scope_spec ks S S g G F1) as [G1 A1].
    destruct (IH _ G1 F) as [G2 A2]. split; auto. intros a b. rewrite A2, A1. split.
    + intros [[H|H]|(T & H & H')]; auto; right; [exists S; tauto|exists T; tauto].
    + intros [H|(T & [<-|H] & H')]; auto. right. exists T. auto.
Qed.
Lemma range_nodup n : NoDup (range n).
Proof. unfold range. apply FinFun.Injective_map_NoDup; [intros a b H; lia|apply seq_NoDup]. Qed.
Lemma range_In n v : In v (range n) <-> (1 <= v <= N.of_nat n)%N.
Proof.
  unfold range. rewrite in_map_iff. split.
  - intros (k & <- & H). apply in_seq in H. lia.
  - intros H. exists (N.to_nat v). rewrite N2Nat.id. split; auto. apply in_seq. lia.
Qed.
Lemma network_graph_spec n scopes : Forall (fun S => incl S (range n)) scopes ->
  keys (network_graph n scopes) = range n /\ gwf (network_graph n scopes) /\
  forall a b, adj (network_graph n scopes) a b <-> exists S, In S scopes /\ In a S /\ In b S /\ b <> a.
Proof.
  intros F. set (g0 := map (fun v => (v, [])) (range n) : graph).
  assert (keys g0 = range n) as K0. { unfold g0, keys. rewrite map_map. apply map_id. }
  assert (forall a nb, Nlookup a g0 = Some nb -> nb = []) as L0.
  { intros a nb H. apply lookup_In, in_map_iff in H as (x & [= _ <-] & _). auto. }
  destruct (add_scopes_spec (range n) scopes g0) as [[GK GS] A]; auto.
  { constructor; auto. intros a nb H. rewrite (L0 _ _ H). constructor. }
  assert (forall a b, adj (network_graph n scopes) a b <-> exists S, In S scopes /\ In a S /\ In b S /\ b <> a) as A'.
  { intros a b. unfold network_graph. fold g0. rewrite A. split; auto. intros [(nb & H & I)|H]; auto. rewrite (L0 _ _ H) in I. destruct I. }
  split; auto. split; auto. constructor; auto.
  - unfold network_graph. fold g0. rewrite GK. apply range_nodup.
  - intros a b. rewrite !A'. intros (S & H & H1 & H2 & H3). exists S. auto.
  - intros a. rewrite A'. intros (S & _ & _ & _ & H). auto.
Qed.
Theorem minfill_full begin ordering n scopes : (forall p g, g <> [] -> In (begin p g) (keys g)) -> Permutation ordering (range n) -> n <> 0 ->
  Forall (fun S => incl S (range n)) scopes ->
  exists t, MinFillVtree begin ordering n scopes = Ok t /\ Permutation (leaves t) (range n) /\ Forall (fun S => right_linear S t) scopes.
Proof.
  intros B PO N0 F. destruct (network_graph_spec n scopes F) as (K & W & A). unfold MinFillVtree.
  destruct (vtree_from_graph begin B (S (length ordering)) [] (network_graph n scopes) (rev ordering)) as (t & E & PL & RL); auto.
  - rewrite K, <- Permutation_rev. exact PO.
  - intros Z. apply (f_equal (@length N)) in Z. rewrite rev_length, (Permutation_length PO) in Z. unfold range in Z. rewrite map_length, seq_length in Z. simpl in Z. lia.
  - rewrite rev_length. lia.
  - exists t. split; auto. split; [rewrite PL, K; auto|]. apply Forall_forall. intros S HS. apply RL. intros a b Ha Hb _ _ NE.
    apply A. exists S. auto.
Qed.
Lemma minfill_empty begin : MinFillVtree begin [] 0 [] = Abort.
Proof. reflexivity. Qed.
