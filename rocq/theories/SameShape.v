(** What is learnt depends on the graph of a PSDD and on the data: not on its parameters, its node indexes, its manager or the history of the
    manager. *)
From Coq Require Import Reals Lra Permutation.
From Verif Require Import Base Param ParamProofs Vtree VtreeProofs Spec SpecProofs Heap Manager HeapProofs SerProofs
  RepProofs OrderProofs CanonProofs LoadProofs MulProofs ReplayProofs TreeProofs Query QueryProofs MpeProofs SampleProofs Learn LearnProofs CountProofs
  ProductTrees ProductNodes ProductProofs Text IO IOProofs OneNode Elsewhere.
Local Open Scope R_scope.

Section Shape.
Context {P : pops} (val : P -> R) (HP : pexact P val).
Notation heap := (heap P). Notation mgr := (mgr P). Notation node := (node P).
Notation Rep := (Rep val).

(** [same_graph h h' r r' f]: [f] maps the nodes below [r] one-to-one to those below [r'], the kinds, variables, literals and children agree; the
    parameters, indexes, flags and the order of the elements are free. *)
Record same_graph (h h' : heap) (r r' : nat) (f : nat -> nat) : Prop := {
  sg_root : f r = r';
  sg_inj : forall i j, reach h r i -> reach h r j -> f i = f j -> i = j;
  sg_node : forall i nd, reach h r i -> nth_error h i = Some nd -> exists nd', nth_error h' (f i) = Some nd' /\
    match n_body nd, n_body nd' with
    | BLit l, BLit l' => l = l'
    | BTop v _ _, BTop v' _ _ => v = v'
    | BDec es, BDec es' => Permutation (map (fun e => (f (e_prime e), f (e_sub e))) es) (map (fun e => (e_prime e, e_sub e)) es')
    | _, _ => False
    end }.

Lemma zip3 {A B C D} (R : A -> B -> Prop) (S : A -> C -> Prop) (g : B -> D) (k : C -> D) l1 l2 l3 : Forall2 R l1 l2 -> Forall2 S l1 l3 -> map g l2 = map k l3 ->
  exists l : list (A * B * C), l1 = map (fun x => fst (fst x)) l /\ l2 = map (fun x => snd (fst x)) l /\ l3 = map snd l /\
    Forall (fun x => R (fst (fst x)) (snd (fst x)) /\ S (fst (fst x)) (snd x) /\ g (snd (fst x)) = k (snd x)) l.
Proof.
  intros F. revert l3. induction F as [|a b l1 l2 Rab F IH]; intros l3 G E; inversion G as [|? c ? l3' Sac G']; subst; [exists []; auto|].
  simpl in E. injection E as E0 E. destruct (IH l3' G' E) as (l & -> & -> & -> & K). exists ((a, b, c) :: l). simpl. auto 10.
Qed.
Lemma F2_of_maps {A B C} (f : A -> C) (g : B -> C) (R : A -> B -> Prop) l l' : map f l = map g l' -> (forall a b, In a l -> In b l' -> f a = g b -> R a b) -> Forall2 R l l'.
Proof.
  revert l'. induction l as [|a l IH]; intros [|b l'] E H; try discriminate; constructor; simpl in E; injection E as E0 E; [apply H; simpl; auto|].
  apply IH; auto. intros; apply H; simpl; auto.
Qed.

Context (vroot vroot' : vtree) (h h' : heap) (HO : heap_ok vroot h) (HO' : heap_ok vroot' h') (r r' : nat) (Hr : (r < length h)%nat) (f : nat -> nat) (SG : same_graph h h' r r' f).
Lemma sg_dec i nd es : reach h r i -> nth_error h i = Some nd -> n_body nd = BDec es -> exists nd' es', nth_error h' (f i) = Some nd' /\ n_body nd' = BDec es' /\
  Permutation (map (fun e => (f (e_prime e), f (e_sub e))) es) (map (fun e => (e_prime e, e_sub e)) es').
Proof.
  intros R E B. destruct (sg_node _ _ _ _ _ SG i nd R E) as (nd' & E' & M). rewrite B in M. destruct (n_body nd') as [| |es'] eqn:B'; try contradiction. eauto.
Qed.
Lemma dec_reach i nd es e : reach h r i -> nth_error h i = Some nd -> n_body nd = BDec es -> In e es -> reach h r (e_prime e) /\ reach h r (e_sub e).
Proof. intros R E B I. split; eapply reach_snoc; eauto; apply in_children; eauto 10. Qed.
Lemma perm_elem (es es' : list (elem P)) e : Permutation (map (fun e => (f (e_prime e), f (e_sub e))) es) (map (fun e => (e_prime e, e_sub e)) es') -> In e es ->
  exists e', In e' es' /\ e_prime e' = f (e_prime e) /\ e_sub e' = f (e_sub e).
Proof.
  intros PM I. assert (In (f (e_prime e), f (e_sub e)) (map (fun e => (e_prime e, e_sub e)) es')) as K. { eapply Permutation_in; [exact PM|]. apply (in_map (fun e => (f (e_prime e), f (e_sub e)))). auto. }
  apply in_map_iff in K as (e' & E & I'). injection E as E1 E2. eauto.
Qed.
Lemma perm_elem' (es es' : list (elem P)) e' : Permutation (map (fun e => (f (e_prime e), f (e_sub e))) es) (map (fun e => (e_prime e, e_sub e)) es') -> In e' es' ->
  exists e, In e es /\ e_prime e' = f (e_prime e) /\ e_sub e' = f (e_sub e).
Proof.
  intros PM I. assert (In (e_prime e', e_sub e') (map (fun e => (f (e_prime e), f (e_sub e))) es)) as K.
  { eapply Permutation_in; [apply Permutation_sym; exact PM|]. apply (in_map (fun e : elem P => (e_prime e, e_sub e))). auto. }
  apply in_map_iff in K as (e & E & I'). injection E as E1 E2. eauto.
Qed.
(** ** Bases *)
Lemma base_same x t : forall i t', reach h r i -> Rep h i t -> Rep h' (f i) t' -> base t' x = base t x.
Proof.
  induction t as [z|v a b|tes IH] using ptree_ind2; intros i t' R A B.
  - apply Rep_lit_inv in A as (nd & E & Bd). destruct (sg_node _ _ _ _ _ SG i nd R E) as (nd' & E' & M). rewrite Bd in M.
    destruct (n_body nd') as [l'| |] eqn:Bd'; try contradiction. subst l'. inversion B; subst; congruence.
  - apply Rep_top_inv in A as (nd & pt & pf & E & Bd & _). destruct (sg_node _ _ _ _ _ SG i nd R E) as (nd' & E' & M). rewrite Bd in M.
    destruct (n_body nd') as [|v' pt' pf'|] eqn:Bd'; try contradiction. subst v'. inversion B; subst; try congruence. reflexivity.
  - apply Rep_dec_inv in A as (nd & es & E & Bd & F). destruct (sg_dec i nd es R E Bd) as (nd' & es' & E' & Bd' & PM).
    inversion B as [| |? nd0 es0 tes' E0 Bd0 F']; subst; try congruence. assert (nd0 = nd') by congruence. subst. assert (es0 = es') by congruence. subst.
    rewrite Forall_forall in IH. apply eq_true_iff_eq. cbn [base]. rewrite !existsb_exists. split.
    + intros (te' & It' & Q). apply andb_true_iff in Q as [Q1 Q2]. destruct (Forall2_in_r _ _ _ _ F' It') as (e' & Ie' & A1 & A2 & _).
      destruct (perm_elem' es es' e' PM Ie') as (e & Ie & P1 & P2). destruct (Forall2_in_l _ _ _ _ F Ie) as (te & It & B1 & B2 & _).
      exists te. split; auto. destruct (dec_reach i nd es e R E Bd Ie) as [R1 R2]. destruct (IH te It) as [I1 I2]. rewrite P1 in A1. rewrite P2 in A2.
      fold (tp te') in Q1. fold (ts te') in Q2. change (base (tp te) x && base (ts te) x = true). rewrite <- (I1 _ _ R1 B1 A1), <- (I2 _ _ R2 B2 A2). rewrite Q1, Q2. reflexivity.
    + intros (te & It & Q). apply andb_true_iff in Q as [Q1 Q2]. destruct (Forall2_in_r _ _ _ _ F It) as (e & Ie & A1 & A2 & _).
      destruct (perm_elem es es' e PM Ie) as (e' & Ie' & P1 & P2). destruct (Forall2_in_l _ _ _ _ F' Ie') as (te' & It' & B1 & B2 & _).
      exists te'. split; auto. destruct (dec_reach i nd es e R E Bd Ie) as [R1 R2]. destruct (IH te It) as [I1 I2]. rewrite P1 in B1. rewrite P2 in B2.
      change (base (tp te') x && base (ts te') x = true). rewrite (I1 _ _ R1 A1 B1), (I2 _ _ R2 A2 B2). fold (tp te) in Q1. fold (ts te) in Q2. rewrite Q1, Q2. reflexivity.
Qed.
Lemma reach_lt' i nd : nth_error h' i = Some nd -> (i < length h')%nat.
Proof. intros E. apply nth_error_Some. congruence. Qed.
Lemma sg_lt i t : reach h r i -> Rep h i t -> (f i < length h')%nat.
Proof.
  intros R A. assert (exists nd, nth_error h i = Some nd) as [nd E] by (inversion A; subst; eauto). destruct (sg_node _ _ _ _ _ SG i nd R E) as (nd' & E' & _). eapply reach_lt'; eauto.
Qed.
Lemma reach_node i : reach h r i -> exists nd, nth_error h i = Some nd.
Proof.
  intros R. assert (i < length h)%nat as G.
  { clear SG f. revert Hr. induction R as [k|k nd c j E C R IH]; intros Hk; auto. apply IH. eapply heap_ok_closed; eauto. }
  destruct (nth_error h i) eqn:E; eauto. apply nth_error_None in E. lia.
Qed.
Lemma sat_same x i : reach h r i -> (sat val h i x <-> sat val h' (f i) x).
Proof.
  intros R. destruct (reach_node i R) as [nd E]. destruct (Rep_exists val vroot h HO i) as [t A]; [apply nth_error_Some; congruence|].
  destruct (Rep_exists val vroot' h' HO' (f i)) as [t' A']; [eapply sg_lt; eauto|]. pose proof (base_same x t i t' R A A') as Q. split.
  - intros (u & B & C). exists t'. split; auto. rewrite Q. rewrite (Rep_fun val _ _ _ _ A B). auto.
  - intros (u & B & C). exists t. split; auto. rewrite <- Q. rewrite (Rep_fun val _ _ _ _ A' B). auto.
Qed.
(** ** Contexts *)
Lemma hits_reach x i : hits val h r x i -> reach h r i.
Proof. induction 1 as [|p nd es e c H IH E B I S1 S2 C]; [constructor|]. destruct (dec_reach p nd es e IH E B I) as [R1 R2]. destruct C; subst; auto. Qed.
Lemma hits_there x i : hits val h r x i -> hits val h' r' x (f i).
Proof.
  intros H. induction H as [|p nd es e c H IH E B I S1 S2 C]; [rewrite (sg_root _ _ _ _ _ SG); constructor|].
  pose proof (hits_reach x p H) as R. destruct (sg_dec p nd es R E B) as (nd' & es' & E' & B' & PM). destruct (perm_elem es es' e PM I) as (e' & I' & P1 & P2).
  destruct (dec_reach p nd es e R E B I) as [R1 R2].
  eapply hits_elem; [exact IH|exact E'|exact B'|exact I'|rewrite P1; apply sat_same; auto|rewrite P2; apply sat_same; auto|rewrite P1, P2; destruct C; subst; auto].
Qed.
Lemma hits_back x j : hits val h' r' x j -> exists i, f i = j /\ hits val h r x i.
Proof.
  intros H. induction H as [|p nd' es' e' c H (i & Ei & IH) E' B' I' S1 S2 C]; [exists r; split; [apply SG|constructor]|]. subst p.
  pose proof (hits_reach x i IH) as R. destruct (reach_node i R) as [nd E]. destruct (sg_node _ _ _ _ _ SG i nd R E) as (nd0 & E0 & M).
  assert (nd0 = nd') by congruence. subst nd0. rewrite B' in M. destruct (n_body nd) as [| |es] eqn:B; try contradiction.
  destruct (perm_elem' es es' e' M I') as (e & I & P1 & P2). destruct (dec_reach i nd es e R E B I) as [R1 R2].
  rewrite P1 in S1. rewrite P2 in S2. apply sat_same in S1; auto. apply sat_same in S2; auto.
  destruct C as [-> | ->]; [exists (e_prime e)|exists (e_sub e)]; (split; [auto|eapply hits_elem; eauto]).
Qed.
Lemma hits_same x i : reach h r i -> (hits val h r x i <-> hits val h' r' x (f i)).
Proof.
  intros R. split; [apply hits_there|]. intros H. destruct (hits_back x (f i) H) as (j & E & K). assert (j = i) as <-; auto.
  apply (sg_inj _ _ _ _ _ SG); auto. eapply hits_reach; eauto.
Qed.
(** ** Parameters *)
Lemma learnt_same recs a g g' : 
  (forall i nd, reach h r i -> nth_error h i = Some nd -> exists ns, node_counts val h r recs i nd ns /\ g i = freqs a ns) ->
  (forall i nd, reach h' r' i -> nth_error h' i = Some nd -> exists ns, node_counts val h' r' recs i nd ns /\ g' i = freqs a ns) ->
  forall t i t', reach h r i -> reach h' r' (f i) -> relab g h i t -> relab g' h' (f i) t' -> shuffled t t'.
Proof.
  intros G G'. induction t as [z|v p q|tes IH] using ptree_ind2; intros i t' R R' A B.
  - inversion A as [? nd l E Bd| |]; subst. destruct (sg_node _ _ _ _ _ SG i nd R E) as (nd' & E' & M). rewrite Bd in M.
    destruct (n_body nd') as [l'| |] eqn:Bd'; try contradiction. subst l'.
    inversion B as [? nd0 l E0 Bd0|? nd0 ? ? ? ? ? E0 Bd0|? nd0 ? ? ? E0 Bd0]; subst; assert (nd0 = nd') by congruence; subst nd0; rewrite Bd' in Bd0; try discriminate. injection Bd0 as <-. constructor.
  - inversion A as [|? nd ? pt pf ? ? E Bd Eg|]; subst. destruct (sg_node _ _ _ _ _ SG i nd R E) as (nd' & E' & M). rewrite Bd in M.
    destruct (n_body nd') as [|v' pt' pf'|] eqn:Bd'; try contradiction. subst v'.
    inversion B as [? nd0 l E0 Bd0|? nd0 w ? ? p' q' E0 Bd0 Eg'|? nd0 ? ? ? E0 Bd0]; subst; assert (nd0 = nd') by congruence; subst nd0; rewrite Bd' in Bd0; try discriminate. injection Bd0 as <- _ _.
    destruct (G i nd R E) as (ns & C & Q), (G' (f i) nd' R' E') as (ns' & C' & Q'). unfold node_counts in C, C'. rewrite Bd in C. rewrite Bd' in C'.
    destruct C as (n1 & n2 & -> & C1 & C2), C' as (n1' & n2' & -> & C1' & C2').
    assert (n1' = n1 /\ n2' = n2) as [-> ->].
    { split; [eapply ncount_fun; [exact C1'|]; eapply ncount_ext; [|exact C1]|eapply ncount_fun; [exact C2'|]; eapply ncount_ext; [|exact C2]]; intros x _; pose proof (hits_same x i R); tauto. }
    rewrite Q in Eg. rewrite Q', Eg in Eg'. injection Eg' as -> ->. constructor.
  - inversion A as [| |? nd es tes0 ? E Bd F EW PM]; subst. destruct (sg_dec i nd es R E Bd) as (nd' & es' & E' & Bd' & PE).
    inversion B as [? nd0 l E0 Bd0|? nd0 w ? ? p' q' E0 Bd0 Eg'|? nd0 es0 tes1 tes' E0 Bd0 F' EW' PM']; subst; assert (nd0 = nd') by congruence; subst nd0; rewrite Bd' in Bd0; try discriminate.
    injection Bd0 as <-.
    destruct (G i nd R E) as (ns & C & Q), (G' (f i) nd' R' E') as (ns' & C' & Q'). unfold node_counts in C, C'. rewrite Bd in C. rewrite Bd' in C'.
    rewrite Q in EW. rewrite Q' in EW'. unfold freqs in EW, EW'. set (S := rsum (fun k => rn k + a) ns) in *. set (S' := rsum (fun k => rn k + a) ns') in *.
    destruct (zip3 _ _ _ _ es tes0 ns F C EW) as (l & -> & -> & En & K). destruct (zip3 _ _ _ _ es' tes1 ns' F' C' EW') as (l' & -> & -> & En' & K').
    rewrite !map_map in PE. apply Permutation_sym in PE. apply Permutation_map_inv in PE as (l1 & EM & PL).
    rewrite Forall_forall in K, K', IH.
    assert (forall x y, In x l -> In y l' -> (e_prime (fst (fst y)), e_sub (fst (fst y))) = (f (e_prime (fst (fst x))), f (e_sub (fst (fst x)))) -> snd x = snd y /\
       In (snd (fst x)) tes /\ reach h r (e_prime (fst (fst x))) /\ reach h r (e_sub (fst (fst x))) /\
       reach h' r' (f (e_prime (fst (fst x)))) /\ reach h' r' (f (e_sub (fst (fst x))))) as KK.
    { intros x y Hx Hy EE. injection EE as E1 E2. destruct (K x Hx) as (_ & N1 & _), (K' y Hy) as (_ & N2 & _).
      assert (In (fst (fst x)) (map (fun x => fst (fst x)) l)) as I1 by (apply (in_map (fun x => fst (fst x))); auto).
      destruct (dec_reach i nd _ _ R E Bd I1) as [R1 R2].
      split.
      - eapply ncount_fun; [|exact N2]. eapply ncount_ext; [|exact N1]. intros z _. rewrite E1, E2. pose proof (hits_same z i R). pose proof (sat_same z _ R1). pose proof (sat_same z _ R2). tauto.
      - split; [eapply Permutation_in; [exact PM|]; apply (in_map (fun x => snd (fst x))); auto|]. split; auto. split; auto.
        rewrite <- E1, <- E2. split; (eapply reach_snoc; [exact R'|exact E'|]; apply in_children; exists (map (fun x => fst (fst x)) l'), (fst (fst y)); split; auto; split; auto; apply (in_map (fun x => fst (fst x))); auto). }
    assert (S' = S) as ES.
    { unfold S, S'. rewrite En, En'. rewrite <- (rsum_perm (fun k => rn k + a) (map snd l1) (map snd l)) by (apply Permutation_map, Permutation_sym; auto).
      f_equal. assert (Forall2 (fun y x => snd y = snd x) l' l1) as FF.
      { eapply F2_of_maps; [exact EM|]. intros y x Hy Hx EE. symmetry. apply KK; auto. eapply Permutation_in; [apply Permutation_sym; exact PL|auto]. }
      clear - FF. induction FF; simpl; congruence. }
    rewrite ES in K'.
    assert (Forall2 (fun e e1 => shuffled (tp e) (tp e1) /\ shuffled (ts e) (ts e1) /\ tw e1 = tw e) (map (fun x => snd (fst x)) l1) (map (fun x => snd (fst x)) l')) as FF.
    { assert (Forall2 (fun x y => shuffled (tp (snd (fst x))) (tp (snd (fst y))) /\ shuffled (ts (snd (fst x))) (ts (snd (fst y))) /\ tw (snd (fst y)) = tw (snd (fst x))) l1 l') as FF.
      { eapply F2_of_maps; [symmetry; exact EM|]. intros x y Hx Hy EE. assert (In x l) as Hx' by (eapply Permutation_in; [apply Permutation_sym; exact PL|auto]).
        symmetry in EE. destruct (KK x y Hx' Hy EE) as (EN & IT & R1 & R2 & R3 & R4). injection EE as E1 E2.
        destruct (K x Hx') as ((L1 & L2) & _ & W), (K' y Hy) as ((L1' & L2') & _ & W'). rewrite E1 in L1'. rewrite E2 in L2'.
        destruct (IH _ IT) as [IH1 IH2]. split; [exact (IH1 _ _ R1 R3 L1 L1')|]. split; [exact (IH2 _ _ R2 R4 L2 L2')|]. rewrite W, W', EN. reflexivity. }
      clear - FF. induction FF; simpl; constructor; auto. }
    assert (Permutation (map (fun x => snd (fst x)) l1) tes) as PT by (eapply Permutation_trans; [apply Permutation_map, Permutation_sym; exact PL|exact PM]).
    destruct (Permutation_Forall2 PT FF) as (es1 & PM2 & F2).
    eapply sh_dec; [exact F2|]. eapply Permutation_trans; [apply Permutation_sym; exact PM2|exact PM'].
Qed.
End Shape.

Section Learn.
Context {P : pops} (val : P -> R) (HP : pexact P val).
Lemma learn_same (m m' : mgr P) fl fl' root root' s t t' f ud ud' (dc dc' : counts) (recs : list inst) (ex ex' : examples) alpha alpha' :
  tidy val fl m -> tidy val fl' m' -> psdd_at val m root s t -> psdd_at val m' root' s t' -> same_graph (m_heap m) (m_heap m') root root' f ->
  (forall v, In v (leaves s) -> ex v = Some (map (fun x => x v) recs)) -> (forall v, In v (leaves s) -> ex' v = Some (map (fun x => x v) recs)) ->
  (forall i nd, reach (m_heap m) root i -> nth_error (m_heap m) i = Some nd -> dc i = repeat 0%N (arity nd)) ->
  (forall i nd, reach (m_heap m') root' i -> nth_error (m_heap m') i = Some nd -> dc' i = repeat 0%N (arity nd)) -> 0 < val alpha -> val alpha = val alpha' ->
  exists i ud1 dc1 m1 t1 i' ud1' dc1' m1' t1',
    LearnPsddParameters (m_heap m) ud dc root ex (length recs) alpha fl m = Ok (i, ud1, dc1, m1) /\ psdd_at val m1 i s t1 /\
    LearnPsddParameters (m_heap m') ud' dc' root' ex' (length recs) alpha' fl' m' = Ok (i', ud1', dc1', m1') /\ psdd_at val m1' i' s t1' /\ shuffled t1 t1'.
Proof.
  intros T T' A A' SG X X' Z Z' PA EA.
  destruct (learn_full val HP m fl root s t ud dc recs ex alpha T A X Z PA) as (i & ud1 & dc1 & m1 & t1 & g & E & _ & A1 & _ & _ & RL & G & _).
  rewrite EA in PA. destruct (learn_full val HP m' fl' root' s t' ud' dc' recs ex' alpha' T' A' X' Z' PA) as (i' & ud1' & dc1' & m1' & t1' & g' & E' & _ & A1' & _ & _ & RL' & G' & _).
  exists i, ud1, dc1, m1, t1, i', ud1', dc1', m1', t1'. do 4 (split; [assumption|]).
  pose proof (tidy_inv val HP _ _ T) as I. pose proof (tidy_inv val HP _ _ T') as I'. rewrite EA in G.
  eapply (learnt_same val (m_vt m) (m_vt m') (m_heap m) (m_heap m') (wf_heap _ (proj1 I)) (wf_heap _ (proj1 I')) root root'); eauto.
  - eapply Rep_lt. apply A.
  - constructor.
  - rewrite (sg_root _ _ _ _ _ SG). constructor.
  - rewrite (sg_root _ _ _ _ _ SG). exact RL'.
Qed.
End Learn.

(** ** The same PSDD, held by two managers, has the same graph *)
Section Held.
Context {P : pops} (val : P -> R) (HP : pexact P val).
Notation mgr := (mgr P).
Lemma choose_fun (Q : nat -> nat -> Prop) L : (forall i, In i L -> exists j, Q i j) -> exists f, forall i, In i L -> Q i (f i).
Proof.
  induction L as [|a L IH]; intros H; [exists (fun i => i); intros i []|]. destruct IH as [f F]; [intros; apply H; right; auto|]. destruct (H a) as [b B]; [left; auto|].
  exists (fun i => if Nat.eqb i a then b else f i). intros i I. destruct (Nat.eqb_spec i a) as [->|N]; auto. destruct I as [->|I]; [congruence|auto].
Qed.
Lemma held_below fl (m : mgr) i k : held fl m i -> reach (m_heap m) i k -> held fl m k.
Proof. intros H R j Rj. apply H. eapply reach_trans; eauto. Qed.
Lemma dec_children (m : mgr) k p tes : Wf m -> node_at val m k p (TDec tes) -> exists nd es, nth_error (m_heap m) k = Some nd /\ n_body nd = BDec es /\
  Forall2 (fun e te => node_at val m (e_prime e) (false :: p) (tp te) /\ node_at val m (e_sub e) (true :: p) (ts te) /\ reach (m_heap m) k (e_prime e) /\ reach (m_heap m) k (e_sub e)) es tes.
Proof.
  intros W [V A]. apply Rep_dec_inv in A as (nd & es & E & B & F). exists nd, es. split; auto. split; auto.
  pose proof (wf_heap _ W _ _ E) as NO. unfold node_ok in NO. rewrite B in NO. destruct NO as (_ & _ & NO). unfold vt_of in V. rewrite E in V. simpl in V. injection V as <-.
  assert (forall e, In e es -> reach (m_heap m) k (e_prime e) /\ reach (m_heap m) k (e_sub e)) as RC.
  { intros e I. split; (eapply reach_step; [exact E| |constructor]; apply in_children; eauto 10). }
  clear E B. induction F as [|e te es tes (A1 & A2 & _) F IH]; constructor; inversion NO as [|? ? (_ & _ & V1 & V2) NO']; subst.
  - destruct (RC e (or_introl eq_refl)). unfold node_at. auto 10.
  - apply IH; auto. intros; apply RC; right; auto.
Qed.

Context (m m' : mgr) (fl fl' : N) (W : Wf m) (W' : Wf m') (SO : sortedH m) (SO' : sortedH m') (r r' : nat) (p p' : path) (t t' : ptree)
  (A : node_at val m r p t) (A' : node_at val m' r' p' t') (H : held fl m r) (H' : held fl' m' r') (S : shuffled t t') (D : deterministic t).
Definition twin (k k' : nat) : Prop := exists a u u', node_at val m k (a ++ p) u /\ node_at val m' k' (a ++ p') u' /\ shuffled u u' /\ deterministic u /\
  reach (m_heap m) r k /\ reach (m_heap m') r' k'.
Lemma twin_fun k k1 k2 : twin k k1 -> twin k k2 -> k1 = k2.
Proof.
  intros (a & u & u1 & A1 & B1 & S1 & D1 & R1 & R1') (b & v & v1 & A2 & B2 & S2 & D2 & R2 & R2').
  assert (a = b) as <-. { destruct A1 as [V1 _], A2 as [V2 _]. rewrite V1 in V2. injection V2 as V2. eapply app_inv_tail; eauto. }
  rewrite (Rep_fun val _ _ _ _ (proj2 A2) (proj2 A1)) in S2.
  eapply (same_shuffled val HP fl' m' W' u (a ++ p') k1 k2); eauto; apply held_kept; auto; eapply held_below; eauto.
Qed.
Lemma twin_inj k1 k2 k' : twin k1 k' -> twin k2 k' -> k1 = k2.
Proof.
  intros (a & u & u1 & A1 & B1 & S1 & D1 & R1 & R1') (b & v & v1 & A2 & B2 & S2 & D2 & R2 & R2').
  assert (a = b) as <-. { destruct B1 as [V1 _], B2 as [V2 _]. rewrite V1 in V2. injection V2 as V2. eapply app_inv_tail; eauto. }
  rewrite (Rep_fun val _ _ _ _ (proj2 B2) (proj2 B1)) in S2.
  eapply (same_shuffled val HP fl m W u (a ++ p) k1 k2); eauto using shuffled_refl; [apply held_kept; auto; eapply held_below; eauto..|].
  eapply shuffled_trans; [exact S1|]. apply shuffled_sym; auto.
Qed.
Lemma twin_elems k k' nd es : twin k k' -> nth_error (m_heap m) k = Some nd -> n_body nd = BDec es -> exists nd' es' es1, nth_error (m_heap m') k' = Some nd' /\ n_body nd' = BDec es' /\
  Forall2 (fun e e' => twin (e_prime e) (e_prime e') /\ twin (e_sub e) (e_sub e')) es es1 /\ Permutation es1 es'.
Proof.
  intros (a & u & u' & A1 & B1 & S1 & D1 & R1 & R1') E B.
  assert (exists tes, u = TDec tes) as [tes ->]. { destruct A1 as [_ A1]. inversion A1; subst; eauto; congruence. }
  apply shuffled_dec_inv in S1 as (tes1 & tes' & -> & F & PM).
  destruct (dec_children m k _ tes W A1) as (nd0 & es0 & E0 & B0 & F0). assert (nd0 = nd) by congruence. subst. assert (es0 = es) by congruence. subst.
  destruct (dec_children m' k' _ tes' W' B1) as (nd' & es' & E' & B' & F'). exists nd', es'.
  assert (Forall2 (fun te e => node_at val m' (e_prime e) (false :: a ++ p') (tp te) /\ node_at val m' (e_sub e) (true :: a ++ p') (ts te) /\ reach (m_heap m') k' (e_prime e) /\ reach (m_heap m') k' (e_sub e)) tes' es') as F''.
  { clear - F'. induction F'; constructor; auto. }
  apply Permutation_sym in PM. destruct (Permutation_Forall2 PM F'') as (es1 & PM1 & F1). exists es1. split; auto. split; auto. split; [|apply Permutation_sym; auto].
  apply all_nodes_dec in D1 as [_ D1]. clear - F0 F F1 D1 R1 R1'. revert tes1 F es1 F1.
  induction F0 as [|e te es tes (G1 & G2 & G3 & G4) F0 IH]; intros tes1 F es1 F1; inversion F as [|? te1 ? tes2 (Q1 & Q2 & _) F2]; subst; inversion F1 as [|? e' ? es2 (K1 & K2 & K3 & K4) F3]; subst; constructor.
  - inversion D1 as [|? ? [D2 D3] D4]; subst. split.
    + exists (false :: a), (tp te), (tp te1). do 4 (split; auto). split; eapply reach_trans; eauto.
    + exists (true :: a), (ts te), (ts te1). do 4 (split; auto). split; eapply reach_trans; eauto.
  - inversion D1; subst. eapply IH; eauto.
Qed.
Lemma twin_root : twin r r'.
Proof. exists [], t, t'. simpl. do 4 (split; auto). split; constructor. Qed.
Lemma twin_down k j k' : reach (m_heap m) k j -> twin k k' -> exists j', twin j j'.
Proof.
  intros R. revert k'. induction R as [i|i nd c j E C R IH]; intros k' T; eauto. apply in_children in C as (es & e & B & I & C).
  destruct (twin_elems i k' nd es T E B) as (nd' & es' & es1 & _ & _ & F & _). destruct (Forall2_in_l _ _ _ _ F I) as (e' & _ & T1 & T2).
  destruct C as [-> | ->]; eauto.
Qed.
Theorem held_graph : exists f, same_graph (m_heap m) (m_heap m') r r' f.
Proof.
  assert (r < length (m_heap m))%nat as Hr by (eapply Rep_lt; apply A).
  destruct (serialize_spec (m_heap m) [r]) as (L & _ & _ & RL & _); [eapply heap_ok_closed; apply W|intros ? [<-|[]]; auto|].
  assert (forall k, reach (m_heap m) r k -> In k L) as IL by (intros k R; apply RL; exists r; split; [left|]; auto).
  destruct (choose_fun twin L) as [f F].
  { intros k I. apply RL in I as (r0 & [<-|[]] & R). eapply twin_down; eauto using twin_root. }
  exists f. constructor.
  - eapply twin_fun; [|apply twin_root]. apply F, IL. constructor.
  - intros i j Ri Rj E. eapply twin_inj; [apply F, IL; auto|]. rewrite E. apply F, IL; auto.
  - intros i nd R E. pose proof (F i (IL i R)) as T. destruct (n_body nd) as [l|v a b|es] eqn:B.
    + destruct T as (q & u & u' & A1 & B1 & S1 & _). destruct A1 as [_ A1]. inversion A1; subst; try congruence. assert (nd0 = nd) by congruence. subst.
      inversion S1; subst. destruct B1 as [_ B1]. apply Rep_lit_inv in B1 as (nd' & E' & B'). exists nd'. split; auto. rewrite B'. congruence.
    + destruct T as (q & u & u' & A1 & B1 & S1 & _). destruct A1 as [_ A1]. inversion A1; subst; try congruence. assert (nd0 = nd) by congruence. subst.
      inversion S1; subst. destruct B1 as [_ B1]. apply Rep_top_inv in B1 as (nd' & pt' & pf' & E' & B' & _). exists nd'. split; auto. rewrite B'. congruence.
    + destruct (twin_elems i (f i) nd es T E B) as (nd' & es' & es1 & E' & B' & F2 & PM). exists nd'. split; auto. rewrite B'.
      eapply Permutation_trans; [|apply Permutation_map; exact PM].
      assert (forall e, In e es -> reach (m_heap m) r (e_prime e) /\ reach (m_heap m) r (e_sub e)) as RE. { intros e I. split; (eapply reach_snoc; eauto; apply in_children; eauto 10). }
      replace (map (fun e => (f (e_prime e), f (e_sub e))) es) with (map (fun e : elem P => (e_prime e, e_sub e)) es1); auto. clear - F2 RE F IL W' SO' H' HP.
      induction F2 as [|e e' es es1 [T1 T2] F2 IH]; auto. simpl. rewrite IH by (intros; apply RE; right; auto). destruct (RE e (or_introl eq_refl)) as [R1 R2].
      rewrite (twin_fun _ _ _ T1 (F _ (IL _ R1))), (twin_fun _ _ _ T2 (F _ (IL _ R2))). reflexivity.
Qed.
End Held.

(** ** Equal orders *)
Section Order.
Context {P : pops}.
Notation heap := (heap P).
(** [same_order h h' r r' f]: as [same_graph], with the elements in the same order *)
Record same_order (h h' : heap) (r r' : nat) (f : nat -> nat) : Prop := {
  so_root : f r = r';
  so_inj : forall i j, reach h r i -> reach h r j -> f i = f j -> i = j;
  so_node : forall i nd, reach h r i -> nth_error h i = Some nd -> exists nd', nth_error h' (f i) = Some nd' /\
    match n_body nd, n_body nd' with
    | BLit l, BLit l' => l = l'
    | BTop v _ _, BTop v' _ _ => v = v'
    | BDec es, BDec es' => map (fun e => (f (e_prime e), f (e_sub e))) es = map (fun e => (e_prime e, e_sub e)) es'
    | _, _ => False
    end }.
Lemma order_graph h h' r r' f : same_order h h' r r' f -> same_graph h h' r r' f.
Proof.
  intros [A B C]. constructor; auto. intros i nd R E. destruct (C i nd R E) as (nd' & E' & M). exists nd'. split; auto.
  destruct (n_body nd), (n_body nd'); auto. rewrite M. apply Permutation_refl.
Qed.
Lemma order_children (h h' : heap) r r' f i nd : same_order h h' r r' f -> reach h r i -> nth_error h i = Some nd -> exists nd', nth_error h' (f i) = Some nd' /\ children nd' = map f (children nd).
Proof.
  intros SO R E. destruct (so_node _ _ _ _ _ SO i nd R E) as (nd' & E' & M). exists nd'. split; auto. unfold children.
  destruct (n_body nd) as [| |es], (n_body nd') as [| |es']; try contradiction; auto. rewrite map_app, !map_map.
  assert (map (@fst nat nat) (map (fun e => (f (e_prime e), f (e_sub e))) es) = map fst (map (fun e => (e_prime e, e_sub e)) es')) as M1 by congruence.
  assert (map (@snd nat nat) (map (fun e => (f (e_prime e), f (e_sub e))) es) = map snd (map (fun e => (e_prime e, e_sub e)) es')) as M2 by congruence.
  rewrite !map_map in M1, M2. simpl in M1, M2. f_equal; symmetry; [exact M1|exact M2].
Qed.
Lemma memb_map (Q : nat -> Prop) f c l : (forall i j, Q i -> Q j -> f i = f j -> i = j) -> Q c -> Forall Q l -> memb (f c) (map f l) = memb c l.
Proof.
  intros I Qc F. induction F as [|a l Qa F IH]; auto. unfold memb in *. simpl. rewrite IH. f_equal.
  destruct (Nat.eqb_spec (f c) (f a)) as [E|E], (Nat.eqb_spec c a) as [E1|E1]; try reflexivity; exfalso; first [congruence|apply E1, I; auto].
Qed.
Lemma push_map (Q : nat -> Prop) f cs : (forall i j, Q i -> Q j -> f i = f j -> i = j) -> Forall Q cs -> forall l, Forall Q l ->
  fold_left push_new (map f cs) (map f l) = map f (fold_left push_new cs l) /\ Forall Q (fold_left push_new cs l).
Proof.
  intros I F. induction F as [|c cs Qc F IH]; intros l Fl; auto. simpl. unfold push_new at 2 4 6. rewrite (memb_map Q) by auto.
  destruct (memb c l); auto. destruct (IH (l ++ [c])) as [A B]; [apply Forall_app; auto|]. rewrite map_app in A. auto.
Qed.
Lemma ser_map (h h' : heap) r r' f : same_order h h' r r' f -> forall fuel k R L, Forall (reach h r) R -> ser_loop fuel h k R = Ok L -> ser_loop fuel h' k (map f R) = Ok (map f L).
Proof.
  intros SO. induction fuel as [|fuel IH]; intros k R L FR E; simpl in *; rewrite nth_error_map; destruct (nth_error R k) as [i|] eqn:K; simpl in *; try congruence.
  destruct (nth_error h i) as [nd|] eqn:En; [|discriminate]. cbn [get bind] in E.
  assert (reach h r i) as Ri. { rewrite Forall_forall in FR. apply FR. eapply nth_error_In; eauto. }
  destruct (order_children _ _ _ _ _ i nd SO Ri En) as (nd' & E' & C). rewrite E'. cbn [get bind]. rewrite C.
  destruct (push_map (reach h r) f (children nd)) with (l := R) as [Q1 Q2]; auto; [apply SO| |].
  { apply Forall_forall. intros c Hc. eapply reach_snoc; eauto. }
  rewrite Q1. apply IH; auto.
Qed.
Lemma ser_fuel (h : heap) : forall fuel fuel' k R L L', ser_loop fuel h k R = Ok L -> ser_loop fuel' h k R = Ok L' -> L = L'.
Proof.
  induction fuel as [|fuel IH]; intros fuel' k R L L' E E'; simpl in E; destruct (nth_error R k) as [i|] eqn:K; try discriminate.
  - destruct fuel'; simpl in E'; rewrite K in E'; congruence.
  - destruct fuel'; simpl in E'; rewrite K in E'; [discriminate|]. destruct (nth_error h i); [|discriminate]. cbn [get bind] in *. eauto.
  - destruct fuel'; simpl in E'; rewrite K in E'; congruence.
Qed.
Lemma serialize_same (h h' : heap) r r' f L L' : same_order h h' r r' f -> SerializePsddNodes h [r] = Ok L -> SerializePsddNodes h' [r'] = Ok L' -> L' = map f L.
Proof.
  intros SO E E'. unfold SerializePsddNodes in *. simpl fold_left in *. unfold push_new in *. cbn [memb existsb app] in *.
  pose proof (ser_map h h' r r' f SO (S (length h)) 0 [r] L) as K. simpl map in K. rewrite (so_root _ _ _ _ _ SO) in K.
  eapply ser_fuel; [exact E'|]. apply K; auto. repeat constructor.
Qed.

(** ** Sampling instantiations *)
(** [same_sampler h h' i i']: the nodes are the same PSDD with the elements in the same order *)
Inductive same_sampler (h h' : heap) : nat -> nat -> Prop :=
| ss_lit i i' nd nd' l : nth_error h i = Some nd -> nth_error h' i' = Some nd' -> n_body nd = BLit l -> n_body nd' = BLit l -> same_sampler h h' i i'
| ss_top i i' nd nd' v a b : nth_error h i = Some nd -> nth_error h' i' = Some nd' -> n_body nd = BTop v a b -> n_body nd' = BTop v a b -> same_sampler h h' i i'
| ss_dec i i' nd nd' es es' : nth_error h i = Some nd -> nth_error h' i' = Some nd' -> n_body nd = BDec es -> n_body nd' = BDec es' ->
    Forall2 (fun e e' => same_sampler h h' (e_prime e) (e_prime e') /\ same_sampler h h' (e_sub e) (e_sub e') /\ e_param e = e_param e') es es' -> same_sampler h h' i i'.
Lemma pick_same (Q : elem P -> elem P -> Prop) u es es' : Forall2 (fun e e' => Q e e' /\ e_param e = e_param e') es es' -> forall acc,
  match pick u acc es, pick u acc es' with Ok e, Ok e' => Q e e' | Abort, Abort => True | _, _ => False end.
Proof. induction 1 as [|e e' es es' [Q1 Q2] F IH]; intros acc; simpl; auto. rewrite <- Q2. destruct (plt u _); [exact Q1|apply IH]. Qed.
Theorem direct_sample_same (h h' : heap) : forall fuel i i' x s, same_sampler h h' i i' -> DirectSample fuel h i x s = DirectSample fuel h' i' x s.
Proof.
  induction fuel as [|fuel IH]; intros i i' x s S; auto. inversion S as [? ? nd nd' l E E' B B'|? ? nd nd' v a b E E' B B'|? ? nd nd' es es' E E' B B' F]; subst; cbn [DirectSample]; unfold node_of;
    rewrite E, E'; cbn [get bind]; rewrite B, B'; auto.
  destruct s as [|u s]; auto. cbn [draw bind fst snd].
  pose proof (pick_same (fun e e' => same_sampler h h' (e_prime e) (e_prime e') /\ same_sampler h h' (e_sub e) (e_sub e')) u es es') as K.
  assert (Forall2 (fun e e' => (same_sampler h h' (e_prime e) (e_prime e') /\ same_sampler h h' (e_sub e) (e_sub e')) /\ e_param e = e_param e') es es') as F' by (clear - F; induction F as [|? ? ? ? (? & ? & ?) ? ?]; constructor; auto).
  specialize (K F' pzero). destruct (pick u pzero es) as [e| | |], (pick u pzero es') as [e'| | |]; try contradiction; auto. destruct K as [K1 K2]. cbn [bind].
  rewrite (IH _ _ x s K1). destruct (DirectSample fuel h' (e_prime e') x s) as [[y s']| | |]; auto. cbn [bind fst snd]. apply IH; auto.
Qed.
End Order.

(** ** Sampling parameters *)
Section SampleOrder.
Context {P : pops} (val : P -> R) (HP : pexact P val).
Lemma relab_same (h h' : heap P) r r' f g g' : same_order h h' r r' f -> (forall i, reach h r i -> g' (f i) = g i) ->
  forall t i t', reach h r i -> relab g h i t -> relab g' h' (f i) t' -> shuffled t t'.
Proof.
  intros SO G. induction t as [z|v p q|tes IH] using ptree_ind2; intros i t' R A B.
  - inversion A as [? nd l E Bd| |]; subst. destruct (so_node _ _ _ _ _ SO i nd R E) as (nd' & E' & M). rewrite Bd in M.
    destruct (n_body nd') as [l'| |] eqn:Bd'; try contradiction. subst l'.
    inversion B as [? nd0 l E0 Bd0|? nd0 ? ? ? ? ? E0 Bd0|? nd0 ? ? ? E0 Bd0]; subst; assert (nd0 = nd') by congruence; subst nd0; rewrite Bd' in Bd0; try discriminate. injection Bd0 as <-. constructor.
  - inversion A as [|? nd ? pt pf ? ? E Bd Eg|]; subst. destruct (so_node _ _ _ _ _ SO i nd R E) as (nd' & E' & M). rewrite Bd in M.
    destruct (n_body nd') as [|v' pt' pf'|] eqn:Bd'; try contradiction. subst v'.
    inversion B as [? nd0 l E0 Bd0|? nd0 w ? ? p' q' E0 Bd0 Eg'|? nd0 ? ? ? E0 Bd0]; subst; assert (nd0 = nd') by congruence; subst nd0; rewrite Bd' in Bd0; try discriminate. injection Bd0 as <- _ _.
    rewrite (G i R), Eg in Eg'. injection Eg' as -> ->. constructor.
  - inversion A as [| |? nd es tes0 ? E Bd F EW PM]; subst. destruct (so_node _ _ _ _ _ SO i nd R E) as (nd' & E' & M). rewrite Bd in M.
    destruct (n_body nd') as [| |es'] eqn:Bd'; try contradiction.
    inversion B as [? nd0 l E0 Bd0|? nd0 w ? ? p' q' E0 Bd0 Eg'|? nd0 es0 tes1 tes' E0 Bd0 F' EW' PM']; subst; assert (nd0 = nd') by congruence; subst nd0; rewrite Bd' in Bd0; try discriminate.
    injection Bd0 as <-. rewrite (G i R), <- EW in EW'.
    assert (forall e, In e es -> reach h r (e_prime e) /\ reach h r (e_sub e)) as RE. { intros e I. split; (eapply reach_snoc; eauto; apply in_children; eauto 10). }
    rewrite Forall_forall in IH. assert (forall te, In te tes0 -> In te tes) as IT by (intros te I; eapply Permutation_in; eauto).
    assert (Forall2 (fun e e1 => shuffled (tp e) (tp e1) /\ shuffled (ts e) (ts e1) /\ tw e1 = tw e) tes0 tes1) as FF.
    { clear - F F' M EW' RE IH IT. revert es' tes1 F' M EW'. induction F as [|e te es tes0 [L1 L2] F IHF]; intros es' tes1 F' M EW'; inversion F' as [|e' te' ? ? [L1' L2'] F1]; subst; simpl in M, EW'; try discriminate; constructor.
      - injection M as M1 M2 M3. injection EW' as W1 _. destruct (RE e (or_introl eq_refl)) as [R1 R2]. destruct (IH te (IT te (or_introl eq_refl))) as [I1 I2].
        rewrite <- M1 in L1'. rewrite <- M2 in L2'. split; [exact (I1 _ _ R1 L1 L1')|]. split; [exact (I2 _ _ R2 L2 L2')|auto].
      - injection M as _ _ M3. injection EW' as _ W2. eapply IHF; eauto; [intros; apply RE; right; auto|intros; apply IT; right; auto]. }
    destruct (Permutation_Forall2 PM FF) as (es1 & PM2 & F2).
    eapply sh_dec; [exact F2|]. eapply Permutation_trans; [apply Permutation_sym; exact PM2|exact PM'].
Qed.
Lemma concat_same {A} (D D' : nat -> list A) f L : forall u u', (forall i, In i L -> length (D' (f i)) = length (D i)) ->
  concat (map D L) ++ u = concat (map D' (map f L)) ++ u' -> (forall i, In i L -> D' (f i) = D i) /\ u = u'.
Proof.
  induction L as [|a L IH]; intros u u' HL E; [split; [intros i []|auto]|]. simpl in E. rewrite <- !app_assoc in E.
  assert (D a = D' (f a) /\ concat (map D L) ++ u = concat (map D' (map f L)) ++ u') as [E1 E2].
  { pose proof (HL a (or_introl eq_refl)) as L1. revert E L1. generalize (concat (map D L) ++ u) (concat (map D' (map f L)) ++ u') (D a) (D' (f a)). clear.
    intros r r' l. revert r r'. induction l as [|x l IH]; intros r r' [|y l'] E L; try discriminate; auto. simpl in *. injection E as -> E. destruct (IH _ _ _ E) as [-> ->]; auto. }
  destruct (IH u u') as [I1 I2]; auto. { intros; apply HL; right; auto. } split; auto. intros i [->|I]; auto.
Qed.
Lemma order_need (h h' : heap P) r r' f i : same_order h h' r r' f -> reach h r i -> (exists nd, nth_error h i = Some nd) -> need_at h' (f i) = need_at h i.
Proof.
  intros SO R [nd E]. destruct (so_node _ _ _ _ _ SO i nd R E) as (nd' & E' & M). unfold need_at. rewrite E, E'. unfold need_nd.
  destruct (n_body nd) as [| |es], (n_body nd') as [| |es']; try contradiction; auto. assert (length (map (fun e => (f (e_prime e), f (e_sub e))) es) = length (map (fun e => (e_prime e, e_sub e)) es')) as K by congruence.
  rewrite !map_length in K. auto.
Qed.
Context (G : dops P) (dv : dcar G -> R) (HG : dexact G val dv) (near1 : P -> bool) (N1 : forall p, val p = 1 -> near1 p = true).
Theorem sample_same (m m' : mgr P) fl fl' root root' s t t' f ud ud' us : tidy val fl m -> tidy val fl' m' -> psdd_at val m root s t -> psdd_at val m' root' s t' ->
  same_order (m_heap m) (m_heap m') root root' f -> Forall (fun u => 0 < dv u) us ->
  (exists L, SerializePsddNodes (m_heap m) [root] = Ok L /\ (need (m_heap m) L <= length us)%nat) ->
  exists r us' ud1 m1 t1 r' ud1' m1' t1', SampleParameters G near1 (m_heap m) ud root fl us m = Ok (r, us', ud1, m1) /\ psdd_at val m1 r s t1 /\
    SampleParameters G near1 (m_heap m') ud' root' fl' us m' = Ok (r', us', ud1', m1') /\ psdd_at val m1' r' s t1' /\ shuffled t1 t1'.
Proof.
  intros T T' A A' SO PU (L & EL & NL).
  destruct (sample_params_full val HP G dv HG near1 N1 m fl root s t ud us T A PU) as (L0 & EL0 & K). assert (L0 = L) by congruence. subst L0.
  destruct (sample_params_full val HP G dv HG near1 N1 m' fl' root' s t' ud' us T' A' PU) as (L' & EL' & K').
  pose proof (serialize_same _ _ _ _ _ _ _ SO EL EL') as ->.
  pose proof (tidy_inv val HP _ _ T) as I. pose proof (wf_heap _ (proj1 I)) as HO.
  assert (forall i, In i L -> reach (m_heap m) root i /\ exists nd, nth_error (m_heap m) i = Some nd) as RL.
  { destruct (serialize_spec (m_heap m) [root]) as (L1 & E1 & _ & R1 & _); [eapply heap_ok_closed; eauto|intros ? [<-|[]]; eapply Rep_lt; apply A|]. assert (L1 = L) by congruence. subst L1.
    intros i Hi. apply R1 in Hi as (? & [<-|[]] & R). split; auto. eapply reach_node; eauto. eapply Rep_lt. apply A. }
  assert (need (m_heap m') (map f L) = need (m_heap m) L) as EN.
  { unfold need. rewrite map_map. f_equal. apply map_ext_in. intros i Hi. destruct (RL i Hi). eapply order_need; eauto. }
  destruct (K NL) as (r & us' & ud1 & m1 & t1 & E & _ & A1 & _ & _ & _ & _ & _ & _ & (D & EU & ED & RB) & _).
  rewrite EN in K'. destruct (K' NL) as (r' & us2 & ud1' & m1' & t1' & E' & _ & A1' & _ & _ & _ & _ & _ & _ & (D' & EU' & ED' & RB') & _).
  rewrite <- map_rev in EU'. destruct (concat_same D D' f (rev L) us' us2) as [ES EUU].
  { intros i Hi. apply in_rev in Hi. destruct (RL i Hi). rewrite (ED i Hi), (ED' (f i)) by (apply in_map; auto). eapply order_need; eauto. }
  { rewrite <- EU, <- EU'. reflexivity. }
  subst us2. exists r, us', ud1, m1, t1, r', ud1', m1', t1'. do 4 (split; [assumption|]).
  eapply (relab_same (m_heap m) (m_heap m') root root' f); [exact SO| |constructor|exact RB|rewrite (so_root _ _ _ _ _ SO); exact RB'].
  intros i R. cbv beta. rewrite ES; auto. apply -> in_rev.
  destruct (serialize_spec (m_heap m) [root]) as (L1 & E1 & _ & R1 & _); [eapply heap_ok_closed; eauto|intros ? [<-|[]]; eapply Rep_lt; apply A|]. assert (L1 = L) by congruence. subst L1.
  apply R1. exists root. split; [left|]; auto.
Qed.
End SampleOrder.
