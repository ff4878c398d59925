(** How many nodes a compiled network has at each vtree node (C96). *)
From Coq Require Import Reals.
From Verif Require Import Base Param Vtree VtreeProofs Heap Manager HeapProofs SerProofs Pgm SizeProofs PgmNet SizeAtProofs.
Local Open Scope nat_scope.

Section SizeNet.
Context {P : pops}.
Notation heap := (heap P). Notation mgr := (mgr P). Notation node := (node P).
Context (Hr : forall a : P, peq a a = true) (Hi : forall a : P, plt a a = false).

(** ** Compiling factors adds nodes *)
Lemma term_node_wf v pos neg (m : mgr) x m' : Wf m -> term_node v pos neg m = Ok (x, m') -> Wf m' /\ mext 0%N m m'.
Proof.
  intros W E. unfold term_node in E. destruct (peq (padd pos neg) pzero); [injection E as <- <-; auto using mext_refl|].
  destruct (peq pos pzero); [|destruct (peq neg pzero)]; bk E as [i m1] E1; injection E as <- <-.
  - apply literal_wf in E1 as (A & B & _); auto.
  - apply literal_wf in E1 as (A & B & _); auto.
  - apply top_wf in E1 as (A & B & _); auto.
Qed.
Lemma cond_node_wf v pos neg sp sn (m : mgr) x m' : Wf m -> cond_node v pos neg sp sn m = Ok (x, m') -> Wf m' /\ mext 0%N m m'.
Proof.
  intros W E. unfold cond_node in E. destruct (peq (padd pos neg) pzero); [injection E as <- <-; auto using mext_refl|].
  destruct (peq pos pzero); [|destruct (peq neg pzero)]; bk E as [i m1] E1.
  - apply literal_wf in E1 as (A & B & _); auto. bk E as s _. bk E as [j m2] E2. injection E as <- <-. apply conformed_wf in E2 as (A2 & B2 & _); auto. eauto using mext_trans.
  - apply literal_wf in E1 as (A & B & _); auto. bk E as s _. bk E as [j m2] E2. injection E as <- <-. apply conformed_wf in E2 as (A2 & B2 & _); auto. eauto using mext_trans.
  - apply literal_wf in E1 as (A & B & _); auto. bk E as [j m2] E2. apply literal_wf in E2 as (A2 & B2 & _); auto. bk E as s _. bk E as s2 _. bk E as [k m3] E3. injection E as <- <-.
    apply conformed_wf in E3 as (A3 & B3 & _); auto. eauto using mext_trans.
Qed.
Lemma fold_wf {S A} (mg : S -> mgr) (f : S -> A -> res S) : (forall s a s', Wf (mg s) -> f s a = Ok s' -> Wf (mg s') /\ mext 0%N (mg s) (mg s')) ->
  forall l s s', Wf (mg s) -> foldM f l s = Ok s' -> Wf (mg s') /\ mext 0%N (mg s) (mg s').
Proof.
  intros H. induction l as [|a l IH]; intros s s' W E; cbn [foldM] in E; [injection E as <-; auto using mext_refl|].
  bk E as s1 E1. destruct (H _ _ _ W E1) as [W1 X1]. destruct (IH _ _ W1 E) as [W2 X2]. eauto using mext_trans.
Qed.
Lemma compile_factor_wf ord (F : factor P) (m : mgr) i z m' : Wf m -> compile_factor ord F m = Ok (i, z, m') ->
  Wf m' /\ mext 0%N m m' /\ vt_of (m_heap m') i = Some [].
Proof.
  intros W E. unfold compile_factor in E. bk E as ser _. bk E as u _. destruct (combine _ _) as [|[v l] rest]; [discriminate|]. bk E as loc _.
  bk E as [c m1] E1. apply (fold_wf (fun s : @ncache * @zcache P * mgr => snd s)) in E1; auto.
  2: { intros [[nc zc] n] k s' Wn Q. unfold term_step in Q. destruct (Nlookup _ nc); [injection Q as <-; auto using mext_refl|].
    bk Q as ng _. bk Q as ps _. bk Q as [x n1] Q1. injection Q as <-. eapply term_node_wf; eauto. }
  destruct E1 as [W1 X1]. cbn [snd] in W1, X1. bk E as [x m2] E2. apply (fold_wf (fun s : nat * @ncache * @zcache P * mgr => snd s)) in E2; auto.
  2: { intros [[[k nc] zc] n] [v' l'] s' Wn Q. unfold level_step in Q. bk Q as loc' _. bk Q as [c' n1] Q1. injection Q as <-. cbn [snd] in *.
    apply (fold_wf (fun s : @ncache * @zcache P * mgr => snd s)) in Q1; auto.
    intros [[nc' zc'] n'] a s' Wn' Q. unfold cond_step in Q. destruct (Nlookup _ nc'); [injection Q as <-; auto using mext_refl|].
    bk Q as q1 _. bk Q as q2 _. bk Q as q3 _. bk Q as q4 _. bk Q as [y n2] Q2. injection Q as <-. eapply cond_node_wf; eauto. }
  destruct E2 as [W2 X2]. cbn [snd] in W2, X2. destruct x as [[k nc] zc]. bk E as u1 _. bk E as r _. bk E as z1 _. bk E as j _. bk E as [j' m3] E3. injection E as <- <- <-.
  apply normalize_node_wf in E3 as (W3 & X3 & q & Q & V); auto. injection Q as <-. split; auto. split; auto. eauto using mext_trans.
Qed.
Lemma load_factors_wf ords : forall (fs : network P) k z (m : mgr) nodes z' m', Wf m -> load_factors ords k fs z m = Ok (nodes, z', m') ->
  Wf m' /\ mext 0%N m m' /\ Forall (fun i => vt_of (m_heap m') i = Some []) nodes /\ length nodes = length fs.
Proof.
  induction fs as [|F fs IH]; intros k z m nodes z' m' W E; cbn [load_factors] in E.
  - injection E as <- <- <-. auto using mext_refl.
  - bk E as [[i z1] m1] E1. bk E as [[ns z2] m2] E2. injection E as <- <- <-. apply compile_factor_wf in E1 as (W1 & X1 & V1); auto.
    apply IH in E2 as (W2 & X2 & F2 & L2); auto. cbn [fst snd length]. split; auto. split; [eauto using mext_trans|]. split; [|congruence]. constructor; auto. eapply mext_vt; eauto.
Qed.

(** ** Bounds *)
Section At.
Context (p : path).
Definition bnd (h : heap) (i : nat) (b : nat * nat) : Prop := vt_of h i = Some [] /\ at_most h i p (fst b) (snd b) /\ 1 <= fst b /\ 1 <= snd b.
Definition times (a b : nat * nat) : nat * nat := (fst a * fst b, snd a * snd b).
Definition prod (bs : list (nat * nat)) : nat * nat := fold_right times (1, 1) bs.
Definition below (a b : nat * nat) : Prop := fst a <= fst b /\ snd a <= snd b.
Lemma reach_back (h l : heap) i j : closed h -> reach (h ++ l) i j -> i < length h -> reach h i j /\ j < length h.
Proof.
  intros C R. induction R as [i|i nd c j E Ic R IH]; intros L; [split; auto; constructor|]. rewrite nth_error_app1 in E by auto.
  destruct (IH (C _ _ _ E Ic)) as [R' L']. split; auto. econstructor; eauto.
Qed.
Lemma width_app (h l : heap) i : i < length h -> width_at (h ++ l) i = width_at h i.
Proof. intros L. unfold width_at. rewrite nth_error_app1; auto. Qed.
Lemma at_most_app (h l : heap) i n w : closed h -> i < length h -> at_most h i p n w -> at_most (h ++ l) i p n w.
Proof.
  intros C Li A L ND H. assert (K : forall j, In j L -> j < length h /\ reach h i j /\ vt_of h j = Some p).
  { intros j I. destruct (H j I) as [R V]. destruct (reach_back h l i j C R Li) as [R' L']. split; auto. split; auto.
    unfold vt_of in *. rewrite nth_error_app1 in V by auto. auto. }
  destruct (A L ND) as [A1 A2]; [intros j I; apply (K j I)|]. split; auto.
  replace (map (width_at (h ++ l)) L) with (map (width_at h) L); auto. apply map_ext_in. intros j I. symmetry. apply width_app. apply (K j I).
Qed.
Lemma bnd_mext fl (m m' : mgr) i b : Wf m -> mext fl m m' -> bnd (m_heap m) i b -> bnd (m_heap m') i b.
Proof.
  intros W X (V & A & B). split; [eapply mext_vt; eauto|]. split; auto. destruct (me_heap _ _ _ X) as (l & -> & _).
  apply at_most_app; auto; [eapply heap_ok_closed, W|eapply vt_of_lt; eauto].
Qed.
Lemma bnd_all fl (m m' : mgr) is bs : Wf m -> mext fl m m' -> Forall2 (bnd (m_heap m)) is bs -> Forall2 (bnd (m_heap m')) is bs.
Proof. intros W X F. induction F; constructor; auto. eapply bnd_mext; eauto. Qed.
Lemma bnd_le h i b b' : below b b' -> bnd h i b -> bnd h i b'.
Proof. intros [L1 L2] (V & A & B1 & B2). split; auto. split; [eapply at_most_le; eauto|]. lia. Qed.
Lemma bnd_mul (m : mgr) a b r z m' ba bb : @shaped P -> Wf m -> bnd (m_heap m) a ba -> bnd (m_heap m) b bb -> Multiply m a b 0 = Ok ((r, z), m') ->
  Wf m' /\ mext 0%N m m' /\ match r with Some k => bnd (m_heap m') k (times ba bb) | None => True end.
Proof.
  intros SH W (Va & Aa & Na & Na') (Vb & Ab & Nb & Nb') E. destruct (multiply_wf Hr Hi _ _ _ _ _ _ W E) as [W' X]. split; auto. split; auto. destruct r as [k|]; auto.
  split; [|split; [exact (multiply_at Hr Hi _ _ _ _ _ _ _ _ _ _ _ _ SH W (vt_of_lt _ _ _ Va) (vt_of_lt _ _ _ Vb) E Aa Ab)|cbn; split; nia]].
  unfold Multiply in E. bk E as [r1 [m1 c1]] E1. injection E as -> <-.
  assert (S0 : mst (m_vt m) (m_heap m) m []).
  { split; [exact W|reflexivity|exists []; rewrite app_nil_r; auto|constructor|intros ? ? ? ? []|intros ? ? ? ? ? []|intros ? ? ? ? ? []]. }
  destruct (multiply_grown Hr Hi (m_vt m) (m_heap m) (wf_heap _ W) 0%N (1 + a) a b m [] _ _ c1 S0 (vt_of_lt _ _ _ Va) (vt_of_lt _ _ _ Vb) E1) as [_ RR].
  cbn [fst] in RR. rewrite Va in RR. apply RR.
Qed.
Lemma times_1 b : times (1, 1) b = b. Proof. destruct b. unfold times. cbn. f_equal; lia. Qed.
Lemma times_assoc a b c : times a (times b c) = times (times a b) c. Proof. unfold times. cbn. f_equal; lia. Qed.
Lemma prod_app l1 l2 : prod (l1 ++ l2) = times (prod l1) (prod l2).
Proof. induction l1 as [|b l1 IH]; cbn; [rewrite times_1; auto|]. fold (prod (l1 ++ l2)). rewrite IH. fold (prod l1). rewrite times_assoc. auto. Qed.
Lemma prod_perm l1 l2 : Permutation l1 l2 -> prod l1 = prod l2.
Proof.
  induction 1 as [|x l l' H IH|x y l|l l' l'' H1 IH1 H2 IH2]; auto; [cbn; fold (prod l); fold (prod l'); congruence| |congruence].
  cbn. fold (prod l). unfold times. cbn. f_equal; lia.
Qed.
Lemma prod_pos h is bs : Forall2 (bnd h) is bs -> 1 <= fst (prod bs) /\ 1 <= snd (prod bs).
Proof. induction 1 as [|i b is bs (_ & _ & A & B) F [IH1 IH2]]; cbn; auto. fold (prod bs). split; nia. Qed.

(** compile_network *)
Lemma seq_bound : @shaped P -> forall order bs fin b0 z (m : mgr) r z' m', Wf m -> Forall2 (bnd (m_heap m)) order bs ->
  1 <= fst b0 /\ 1 <= snd b0 -> match fin with Some a => bnd (m_heap m) a b0 | None => True end ->
  foldM seq_step order (fin, z, m) = Ok (Some r, z', m') -> Wf m' /\ hext m m' /\ bnd (m_heap m') r (times b0 (prod bs)).
Proof.
  intros SH. induction order as [|i order IH]; intros bs fin b0 z m r z' m' W F B0 HF E; cbn [foldM] in E; inversion F as [|? b ? bs' Hb F']; subst.
  - injection E as -> <- <-. split; auto. split; [apply hext_refl|]. destruct b0 as [n w]. cbn. unfold times. cbn. rewrite !Nat.mul_1_r. auto.
  - bk E as [[fin1 z1] m1] E1. cbn [prod fold_right]. fold (prod bs'). rewrite times_assoc. assert (B1 : 1 <= fst (times b0 b) /\ 1 <= snd (times b0 b)) by (destruct Hb as (_ & _ & ? & ?); cbn; split; nia).
    unfold seq_step in E1. destruct fin as [a|].
    + bk E1 as [[r1 w1] n1] E2. injection E1 as <- <- <-. destruct (bnd_mul _ _ _ _ _ _ _ _ SH W HF Hb E2) as (W1 & X1 & H1).
      destruct (IH bs' r1 (times b0 b) (pmul z w1) n1 r z' m' W1 (bnd_all _ _ _ _ _ W X1 F') B1) as (W2 & X2 & H2); auto.
      split; auto. split; auto. eapply hext_trans; eauto. eapply mext_hext; eauto.
    + injection E1 as <- <- <-. apply (IH bs' (Some i) (times b0 b) z m r z' m'); auto. eapply bnd_le; [|exact Hb]. unfold below, times. cbn. split; nia.
Qed.
(** The queue *)
Definition obnd (h : heap) (o : option nat) (b : nat * nat) : Prop := match o with Some i => bnd h i b | None => 1 <= fst b /\ 1 <= snd b end.
Lemma obnd_all fl (m m' : mgr) q bs : Wf m -> mext fl m m' -> Forall2 (obnd (m_heap m)) q bs -> Forall2 (obnd (m_heap m')) q bs.
Proof. intros W X F. induction F as [|[i|] b q bs H F IH]; constructor; auto. simpl in *. eapply bnd_mext; eauto. Qed.
Lemma queue_bound gc : @shaped P -> forall fuel queue bs proc z (m : mgr) q' z' m', Wf m -> Forall2 (obnd (m_heap m)) queue bs ->
  queue_loop fuel gc queue proc z m = Ok (q', z', m') -> Wf m' /\ hext m m' /\ exists bs', Forall2 (obnd (m_heap m')) q' bs' /\ prod bs' = prod bs /\ length q' <= 1.
Proof.
  intros SH. induction fuel as [|f IH]; intros queue bs proc z m q' z' m' W F E.
  - destruct queue as [|a [|b queue]]; cbn in E; try discriminate; injection E as <- <- <-; (split; [auto|]; split; [apply hext_refl|]; exists bs; split; auto).
  - destruct queue as [|a [|b queue]]; [cbn in E; injection E as <- <- <-; (split; [auto|]; split; [apply hext_refl|]; exists bs; split; auto)..|].
    cbn [queue_loop] in E. inversion F as [|? ba ? bs1 Ha F1]; subst. inversion F1 as [|? bb ? bs2 Hb F2]; subst.
    destruct a as [a|]; [|discriminate]. destruct b as [b|]; [|discriminate]. cbn [get bind] in E. bk E as [[r w] m1] E1. bk E as u _.
    destruct (bnd_mul _ _ _ _ _ _ _ _ SH W Ha Hb E1) as (W1 & X1 & H1). cbn [fst snd] in E. bk E as m2 E2.
    assert (G : Wf m2 /\ m_vt m2 = m_vt m1 /\ m_heap m2 = m_heap m1).
    { destruct (N.eqb _ 0); [|injection E2 as <-; auto]. bk E2 as used _. pose proof (gc_wf _ _ _ W1 E2) as W2. unfold DeleteUnusedPsddNodes in E2. bk E2 as cov _. injection E2 as <-. auto. }
    destruct G as (W2 & V2 & G2).
    assert (FN : Forall2 (obnd (m_heap m2)) (queue ++ [r]) (bs2 ++ [times ba bb])).
    { rewrite G2. apply Forall2_app; [exact (obnd_all _ _ _ _ _ W X1 F2)|]. apply Forall2_cons; [|apply Forall2_nil]. destruct r as [k|]; simpl; auto.
      destruct Ha as (_ & _ & ? & ?). destruct Hb as (_ & _ & ? & ?). cbn. split; nia. }
    destruct (IH _ _ _ _ _ _ _ _ W2 FN E) as (W3 & X3 & bs' & A & B & C).
    split; auto. split.
    + destruct X3 as [Q1 (l & Q2)]. destruct (mext_hext _ _ _ X1) as [Q3 (l' & Q4)]. split; [congruence|]. exists (l' ++ l). rewrite Q2, G2, Q4, app_assoc. auto.
    + exists bs'. split; auto. split; auto. rewrite B, prod_app. cbn. fold (prod bs2). unfold times. cbn. f_equal; lia.
Qed.
Lemma queue_head (h : heap) q bs r : Forall2 (obnd h) q bs -> length q <= 1 -> hd_error q = Some (Some r) -> bnd h r (prod bs).
Proof.
  intros F L E. destruct F as [|o b q bs H F]; [discriminate|]. injection E as ->. destruct q; [|cbn in L; lia]. inversion F; subst. cbn. replace (times b (1, 1)) with b; auto.
  destruct b. unfold times. cbn. f_equal; lia.
Qed.
(** The products at each vtree node of compile_network_with_vtree *)
Lemma bucket_bound : @shaped P -> forall nodes bs total b0 proc z (m : mgr) t proc' z' m', Wf m -> Forall2 (bnd (m_heap m)) nodes bs ->
  1 <= fst b0 /\ 1 <= snd b0 -> match total with Some a => bnd (m_heap m) a b0 | None => True end ->
  bucket_loop nodes total proc z m = Ok (Some t, proc', z', m') -> Wf m' /\ mext 0%N m m' /\ bnd (m_heap m') t (times b0 (prod bs)).
Proof.
  intros SH. induction nodes as [|i nodes IH]; intros bs total b0 proc z m t proc' z' m' W F B0 HT E; cbn [bucket_loop] in E; inversion F as [|? b ? bs' Hb F']; subst.
  - injection E as -> <- <- <-. split; auto. split; [apply mext_refl|]. destruct b0 as [n w]. cbn. unfold times. cbn. rewrite !Nat.mul_1_r. auto.
  - cbn [prod fold_right]. fold (prod bs'). rewrite times_assoc. assert (B1 : 1 <= fst (times b0 b) /\ 1 <= snd (times b0 b)) by (destruct Hb as (_ & _ & ? & ?); cbn; split; nia).
    destruct total as [a|].
    + bk E as [[r1 w1] n1] E2. destruct (bnd_mul _ _ _ _ _ _ _ _ SH W HT Hb E2) as (W1 & X1 & H1).
      destruct (IH bs' r1 (times b0 b) _ _ n1 t proc' z' m' W1 (bnd_all _ _ _ _ _ W X1 F') B1 H1 E) as (W2 & X2 & H2).
      split; auto. split; auto. eauto using mext_trans.
    + apply (IH bs' (Some i) (times b0 b) proc z m t proc' z' m'); auto. eapply bnd_le; [|exact Hb]. unfold below, times. cbn. split; nia.
Qed.
Lemma Forall2_map_r {A B} (R : A -> B -> Prop) (f : A -> B) l : Forall2 R l (map f l) <-> Forall (fun a => R a (f a)) l.
Proof. split; induction l; cbn; intros H; inversion H; constructor; auto. Qed.
Lemma buckets_bound root at_pos (bf : nat -> nat * nat) : @shaped P -> forall vs out bs proc z (m : mgr) out' proc' z' m', Wf m ->
  Forall2 (obnd (m_heap m)) out bs -> Forall (fun i => bnd (m_heap m) i (bf i)) (items root at_pos vs) ->
  foldM (bucket_step root at_pos) vs (out, proc, z, m) = Ok (out', proc', z', m') ->
  Wf m' /\ mext 0%N m m' /\ exists bs', Forall2 (obnd (m_heap m')) out' bs' /\ prod bs' = times (prod bs) (prod (map bf (items root at_pos vs))).
Proof.
  intros SH. induction vs as [|v vs IH]; intros out bs proc z m out' proc' z' m' W FO FI E; cbn [foldM] in E.
  - injection E as <- <- <- <-. split; auto. split; [apply mext_refl|]. exists bs. split; auto. cbn. destruct (prod bs). unfold times. cbn. f_equal; lia.
  - bk E as [[[o1 p1] z1] m1] E1. unfold items in FI |- *. cbn [flat_map] in FI |- *. fold (items root at_pos vs) in FI |- *. apply Forall_app in FI as [FI1 FI2].
    rewrite map_app, prod_app. unfold bucket_step in E1. set (ns := map snd (filter (fun x => Nat.eqb (fst x) (vpos root (fst v))) at_pos)) in *.
    assert (D : ns = [] \/ exists a l, ns = a :: l) by (destruct ns; eauto). destruct D as [D|(a & l & D)].
    + rewrite D in E1 |- *. injection E1 as <- <- <- <-. cbn [map prod fold_right]. rewrite times_1. eapply IH; eauto.
    + assert (E1' : (do (x, m1) <- bucket_loop ns None proc z m ;; let '(total, proc1, z1) := x in
        do t <- (match total with Some t => Ok t | None => Abort end) ;; Ok (out ++ [Some t], proc1, z1, m1)) = Ok (o1, p1, z1, m1)) by (rewrite D in E1 |- *; exact E1).
      clear E1. bk E1' as [[[total q1] y1] n1] E2. destruct total as [t|]; [|discriminate]. cbn [bind] in E1'. injection E1' as <- <- <- <-.
      assert (F1 : Forall2 (bnd (m_heap m)) ns (map bf ns)) by (apply Forall2_map_r; auto).
      destruct (bucket_bound SH ns (map bf ns) None (1, 1) proc z m t q1 y1 n1 W F1) as (W1 & X1 & H1); auto.
      rewrite times_1 in H1.
      destruct (IH (out ++ [Some t]) (bs ++ [prod (map bf ns)]) q1 y1 n1 out' proc' z' m' W1) as (W2 & X2 & bs' & A & B); auto.
      { apply Forall2_app; [exact (obnd_all _ _ _ _ _ W X1 FO)|]. apply Forall2_cons; [exact H1|apply Forall2_nil]. }
      { eapply Forall_impl; [|exact FI2]. intros i Hb. exact (bnd_mext _ _ _ _ _ W X1 Hb). }
      split; auto. split; [eauto using mext_trans|]. exists bs'. split; auto. rewrite B, prod_app. cbn [prod fold_right].
      replace (times (prod (map bf ns)) (1, 1)) with (prod (map bf ns)); [rewrite times_assoc; auto|]. destruct (prod (map bf ns)). unfold times. cbn. f_equal; lia.
Qed.
Lemma attach_pos root (F : factor P) k : attach root F = Ok k -> exists q s, subtree root q = Some s /\ k = vpos root q.
Proof.
  unfold attach. intros E. bk E as ps E1.
  assert (FP : Forall (fun k => exists q s, subtree root q = Some s /\ k = vpos root q) ps).
  { clear E. revert ps E1. induction (f_scope F) as [|v vs IH]; intros ps E1; cbn [mapM] in E1; [injection E1 as <-; constructor|].
    bk E1 as k1 E2. bk E1 as ks E3. injection E1 as <-. constructor; auto. pose proof (leaf_path_spec root v) as S. destruct (leaf_path root v) as [q|]; [|discriminate].
    cbn [get bind] in E2. injection E2 as <-. eauto. }
  destruct ps as [|k0 ps]; [discriminate|]. injection E as <-. inversion FP as [|? ? K1 K2]; subst. clear - K1 K2. revert k0 K1. induction K2 as [|k' ps K K2 IH]; intros k K1; cbn [fold_left]; auto.
  apply IH. destruct (Nat.ltb k' k); auto.
Qed.
Lemma order_perm srt (m : mgr) (fs : network P) nodes order : (forall key l, Permutation (srt key l) l) -> compilation_order srt m fs nodes = Ok order -> Permutation order nodes.
Proof.
  intros HS E. unfold compilation_order in E. bk E as ser _. bk E as os _. rewrite mapM_nth in E.
  - injection E as <-. rewrite (HS _). rewrite map_nth_seq. auto.
  - eapply Permutation_Forall; [apply Permutation_sym, HS|]. apply Forall_forall. intros k Hk. apply in_seq in Hk. lia.
Qed.

(** All three ways of compiling: at most the product of what the factors have, if [bf] bounds those *)
Theorem networks_bound ords srt gc (fs : network P) (m : mgr) nodes z0 m1 (bf : nat -> nat * nat) : @shaped P -> Wf m -> (forall key l, Permutation (srt key l) l) ->
  load_factors ords 0 fs pone m = Ok (nodes, z0, m1) -> Forall (fun i => bnd (m_heap m1) i (bf i)) nodes ->
  forall r z m', compile_network ords srt fs m = Ok (Some r, z, m') \/ compile_network_dc ords srt gc fs m = Ok (Some r, z, m') \/
    compile_network_with_vtree ords gc fs m = Ok (Some r, z, m') ->
  Wf m' /\ hext m m' /\ bnd (m_heap m') r (prod (map bf nodes)).
Proof.
  intros SH W HS EL FB r z m' E. destruct (load_factors_wf _ _ _ _ _ _ _ _ W EL) as (W1 & X1 & FV & LN).
  assert (ORD : forall order, Permutation order nodes -> Forall2 (bnd (m_heap m1)) order (map bf order) /\ prod (map bf order) = prod (map bf nodes)).
  { intros order Po. split; [apply Forall2_map_r; eapply Permutation_Forall; [apply Permutation_sym, Po|auto]|apply prod_perm, Permutation_map, Po]. }
  destruct E as [E|[E|E]].
  - unfold compile_network in E. rewrite EL in E. cbn [bind fst snd] in E. bk E as order Eo. apply order_perm in Eo; auto. destruct (ORD order Eo) as [F2 Q].
    destruct (seq_bound SH order (map bf order) None (1, 1) z0 m1 r z m' W1 F2) as (W2 & X2 & H); auto.
    rewrite times_1, Q in H. split; auto. split; auto. eapply hext_trans; [eapply mext_hext; eauto|auto].
  - unfold compile_network_dc in E. rewrite EL in E. cbn [bind fst snd] in E. bk E as order Eo. apply order_perm in Eo; auto. destruct (ORD order Eo) as [F2 Q].
    bk E as [[q' z2] m2] E2. bk E as r' E3. injection E as -> <- <-.
    assert (F3 : Forall2 (obnd (m_heap m1)) (map Some order) (map bf order)).
    { clear - F2. remember (map bf order) as bs eqn:Eb. clear Eb. induction F2; constructor; auto. }
    destruct (queue_bound gc SH _ _ _ _ _ _ _ _ _ W1 F3 E2) as (W2 & X2 & bs' & A & B & C). cbn [fst] in E3.
    destruct (hd_error q') as [o|] eqn:Eh; [|discriminate]. cbn [get] in E3. injection E3 as ->. split; auto. split; [eapply hext_trans; [eapply mext_hext; eauto|auto]|].
    rewrite <- Q, <- B. eapply queue_head; eauto.
  - unfold compile_network_with_vtree in E. bk E as ser Es. rewrite EL in E. cbn [bind fst snd] in E. bk E as ps Ep. bk E as [[[out proc] z2] m2] E2. bk E as [[q' z3] m3] E3. bk E as r' E4. injection E as -> <- <-.
    destruct (serialize_vtree_spec [] (m_vt m)) as (ser' & Es' & PSer & _). assert (ser' = ser) as -> by congruence.
    assert (LP : length ps = length fs /\ Forall (fun k => exists q s, subtree (m_vt m) q = Some s /\ k = vpos (m_vt m) q) ps).
    { clear - Ep. revert ps Ep. induction fs as [|F fs IH]; intros ps Ep; cbn [mapM] in Ep; [injection Ep as <-; auto|]. bk Ep as k E1. bk Ep as ks E2. injection Ep as <-.
      destruct (IH _ E2) as [L1 L2]. split; [cbn; auto|]. constructor; auto. eapply attach_pos; eauto. }
    destruct LP as [LP FP].
    assert (PI : Permutation (items (m_vt m) (combine ps nodes) (rev ser)) nodes).
    { rewrite items_perm; auto.
      - replace (map snd (combine ps nodes)) with nodes; auto. assert (length ps = length nodes) as Q by congruence. clear - Q. revert nodes Q.
        induction ps as [|q ps IH]; intros [|n nodes]; simpl; intros; try discriminate; auto. f_equal. apply IH. congruence.
      - intros [k n] Hk. apply in_combine_l in Hk. rewrite Forall_forall in FP. simpl. apply FP, Hk. }
    destruct (buckets_bound (m_vt m) (combine ps nodes) bf SH (rev ser) [] [] 0%N z0 m1 out proc z2 m2 W1) as (W2 & X2 & bs' & A & B); auto.
    { eapply Permutation_Forall; [apply Permutation_sym, PI|auto]. }
    destruct (queue_bound gc SH _ _ _ _ _ _ _ _ _ W2 A E3) as (W3 & X3 & bs'' & A' & B' & C'). cbn [fst] in E4.
    destruct (hd_error q') as [o|] eqn:Eh; [|discriminate]. cbn [get] in E4. injection E4 as ->. split; auto.
    split; [eapply hext_trans; [eapply mext_hext; eauto|eapply hext_trans; [eapply mext_hext; eauto|auto]]|].
    replace (prod (map bf nodes)) with (prod bs''); [eapply queue_head; eauto|]. rewrite B', B. cbn [prod fold_right]. rewrite times_1. apply prod_perm, Permutation_map, PI.
Qed.
(** Every PSDD over the whole vtree has a node at each vtree node *)
Lemma has_node root (h : heap) i s : heap_ok root h -> vt_of h i = Some [] -> subtree root p = Some s -> exists j, reach h i j /\ vt_of h j = Some p.
Proof.
  intros H V. revert s. induction p as [|b q IH]; intros s S; [exists i; split; auto; constructor|].
  cbn [subtree] in S. destruct (subtree root q) as [t|] eqn:Eq; [|discriminate]. destruct (IH t eq_refl) as (j & R & Vj).
  unfold vt_of in Vj. destruct (nth_error h j) as [nd|] eqn:En; [|discriminate]. simpl in Vj. injection Vj as Vj. pose proof (H _ _ En) as O. unfold node_ok in O.
  rewrite Vj, Eq in O. destruct t as [v|l r]; [discriminate S|]. destruct (n_body nd) as [la|v a c|es] eqn:Eb; [discriminate O|discriminate O|].
  destruct O as (NE & _ & F). destruct es as [|e es]; [congruence|]. inversion F as [|? ? (_ & _ & A & B) _]; subst.
  exists (if b then e_sub e else e_prime e). split.
  - eapply reach_snoc; [exact R|exact En|]. apply in_children. exists (e :: es), e. split; auto. split; [left; auto|]. destruct b; auto.
  - destruct b; auto.
Qed.
End At.
End SizeNet.
