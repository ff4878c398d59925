(** PSDDs on which the recursive IsConsistent makes exponentially many calls (C90). *)
From Coq Require Import Reals Lra.
From Verif Require Import Base Param ParamProofs Vtree VtreeProofs Heap Manager HeapProofs SerProofs OrderProofs CanonProofs MulProofs Query MulCost CostProofs.
Local Open Scope nat_scope.

(** The left-linear vtree over the variables 1 .. k + 2 *)
Fixpoint ll (k : nat) : vtree := match k with O => VNode (Leaf 1) (Leaf 2) | S j => VNode (ll j) (Leaf (N.of_nat j + 3)) end.
Lemma ll_sub n : forall j k, n = j + k -> subtree (ll n) (repeat false j) = Some (ll k).
Proof. induction j as [|j IH]; intros k E; [subst; reflexivity|]. cbn [repeat subtree]. rewrite (IH (S k)) by lia. reflexivity. Qed.
Lemma ll_vars k v : In v (leaves (ll k)) -> (1 <= v <= N.of_nat k + 2)%N.
Proof. induction k as [|k IH]; cbn [ll leaves]; intros I; [destruct I as [<-|[<-|[]]]; lia|]. apply in_app_iff in I as [I|[<-|[]]]; [apply IH in I; lia|lia]. Qed.
Lemma ll_nodup k : NoDup (leaves (ll k)).
Proof.
  induction k as [|k IH]; cbn [ll leaves]; [repeat constructor; simpl; intuition congruence|].
  apply (Permutation_NoDup (Permutation_app_comm [_] (leaves (ll k)))). constructor; auto. intros I. apply ll_vars in I. lia.
Qed.

Section Exp.
Context {P : pops}.
Notation heap := (heap P). Notation mgr := (mgr P). Notation node := (node P).

(** ** The counter changes nothing *)
Theorem consistent_erase fuel : forall (h : heap) ev i, erase (consistent_calls fuel h ev i) = node_consistent fuel h ev i.
Proof.
  induction fuel as [|f IH]; intros h ev i; [reflexivity|]. cbn [consistent_calls node_consistent]. destruct (node_of h i) as [nd| | |]; cbn [bind]; try reflexivity.
  destruct (n_body nd) as [l|v pt pf|es]; try reflexivity. generalize 1 as k. induction es as [|e es IHe]; intros k; [reflexivity|].
  rewrite <- (IH h ev (e_prime e)). destruct (consistent_calls f h ev (e_prime e)) as [[[|] k1]| | |]; cbn [erase bind]; try reflexivity; [|apply IHe].
  rewrite <- (IH h ev (e_sub e)). destruct (consistent_calls f h ev (e_sub e)) as [[[|] k2]| | |]; cbn [erase bind]; try reflexivity. apply IHe.
Qed.

Context (Hr : forall a : P, peq a a = true) (Hi : forall a : P, plt a a = false) (W : P -> Prop) (w1 w : P).
Context (Ws : forall a b, W a -> W b -> peq a b = peq b a) (Wt : forall a b, W a -> W b -> plt a b = false -> plt b a = false -> peq a b = true) (W1 : W w1) (W2 : W w).
(** All parameters of decision nodes are among those that compare. *)
Definition same_param (nd : node) : Prop := match n_body nd with BDec es => Forall (fun e => W (e_param e)) es | _ => True end.
Lemma same_shape (a b : node) ea eb : same_param a -> same_param b -> equiv a b = true -> n_body a = BDec ea -> n_body b = BDec eb ->
  map e_prime ea = map e_prime eb /\ map e_sub ea = map e_sub eb.
Proof.
  unfold same_param, equiv, node_less. intros SA SB E Ba Bb. rewrite Ba in *. rewrite Bb in *.
  apply andb_true_iff in E as [E1 E2]. apply negb_true_iff in E1, E2.
  rewrite (N.eqb_sym (n_flag b) (n_flag a)) in E2. destruct (N.eqb_spec (n_flag a) (n_flag b)) as [EF|EF]; cbn [negb] in *; [|apply N.ltb_ge in E1, E2; lia].
  clear Ba Bb EF. revert eb SA SB E1 E2. induction ea as [|x ea IH]; intros [|y eb] SA SB E1 E2; simpl in *; try discriminate; auto.
  pose proof (Forall_inv SA) as X1. pose proof (Forall_inv_tail SA) as X2. pose proof (Forall_inv SB) as Y1. pose proof (Forall_inv_tail SB) as Y2. cbv beta in X1, Y1. 
  rewrite (Ws (e_param y) (e_param x)) in E2 by auto.
  rewrite (Nat.eqb_sym (e_prime y) (e_prime x)), (Nat.eqb_sym (e_sub y) (e_sub x)) in E2.
  destruct (Nat.eqb_spec (e_prime x) (e_prime y)) as [Q1|Q1]; cbn [negb] in *; [|apply Nat.ltb_ge in E1, E2; lia].
  destruct (Nat.eqb_spec (e_sub x) (e_sub y)) as [Q2|Q2]; cbn [negb] in *; [|apply Nat.ltb_ge in E1, E2; lia].
  destruct (peq (e_param x) (e_param y)) eqn:Q3; cbn [negb] in *; [|rewrite (Wt (e_param x) (e_param y)) in Q3 by auto; discriminate].
  destruct (IH eb X2 Y2 E1 E2) as [-> ->]. rewrite Q1, Q2. auto.
Qed.
(** Literals, and decision nodes with the one parameter [w1] or the two parameters [w] *)
Definition plain (o : @op P) : Prop := match o with OLit _ fl => fl = 0%N | ODec _ _ ws fl => fl = 0%N /\ (ws = [w1] \/ ws = [w; w]) | _ => False end.
(** A state of the construction *)
Record st (n : nat) (ops : list (@op P)) (m : mgr) : Prop := {
  st_run : runs (new_mgr (ll n)) ops = Ok m;
  st_wf : Wf m;
  st_vt : m_vt m = ll n;
  st_len : length (m_heap m) <= length ops;
  st_par : Forall same_param (m_heap m);
  st_ops : Forall plain ops;
}.
Lemma st_new n : st n [] (new_mgr (ll n)).
Proof. split; [reflexivity|apply wf_new, ll_nodup|reflexivity|cbn; lia|constructor|constructor]. Qed.
Lemma runs_snoc (m : mgr) ops o m1 m2 : runs m ops = Ok m1 -> step m1 o = Ok m2 -> runs m (ops ++ [o]) = Ok m2.
Proof. intros E1 E2. unfold runs in *. rewrite foldM_app, E1. cbn [bind foldM]. rewrite E2. reflexivity. Qed.
Lemma st_step n ops (m : mgr) o nd i m' : st n ops m -> node_ok (m_vt m) (m_heap m) (length (m_heap m)) nd -> same_param nd -> plain o ->
  GetUniqueNode m nd = (i, m') -> step m o = Ok m' ->
  st n (ops ++ [o]) m' /\ vt_of (m_heap m') i = Some (n_vt nd) /\ (exists l, m_heap m' = m_heap m ++ l) /\
  exists nd', nth_error (m_heap m') i = Some nd' /\ equiv nd nd' = true /\ same_param nd' /\ n_flag nd' = n_flag nd.
Proof.
  intros S NO SP PO E ES. destruct (unique_wf Hr Hi m nd i m' (st_wf _ _ _ S) NO E) as (W' & X & _ & V & nd' & E1 & _ & Fn & _ & Q).
  destruct (unique_spec Hr Hi m nd i m' (st_wf _ _ _ S) NO E) as (_ & _ & _ & _ & D).
  assert (FP : Forall same_param (m_heap m')). { destruct D as [[-> _]|(_ & -> & _)]; [apply S|]. apply Forall_app. split; [apply S|constructor; auto]. }
  split; [split|].
  - eapply runs_snoc; eauto. apply S.
  - exact W'.
  - rewrite (me_vt _ _ _ X). apply S.
  - rewrite app_length. cbn [length]. pose proof (st_len _ _ _ S). destruct D as [[-> _]|(_ & -> & _)]; [|rewrite app_length; cbn [length]]; lia.
  - exact FP.
  - apply Forall_app. split; [apply S|constructor; auto].
  - split; [exact V|]. split; [destruct (me_heap _ _ _ X) as (l & EH & _); eauto|]. exists nd'. split; auto. split; auto. split; auto.
    apply nth_error_In in E1. rewrite Forall_forall in FP. auto.
Qed.
Lemma st_lit n ops (m : mgr) l p : st n ops m -> subtree (ll n) p = Some (Leaf (lit_var l)) ->
  exists i m', st n (ops ++ [OLit l 0]) m' /\ vt_of (m_heap m') i = Some p /\ (exists l, m_heap m' = m_heap m ++ l) /\
    exists nd, nth_error (m_heap m') i = Some nd /\ n_body nd = BLit l.
Proof.
  intros S SV. rewrite <- (st_vt _ _ _ S) in SV. pose proof (leaf_path_unique _ _ _ (wf_leaves _ (st_wf _ _ _ S)) SV) as Ep.
  destruct (GetUniqueNode m (MkN p 0 (BLit l))) as [i m'] eqn:E.
  assert (ES : step m (OLit l 0) = Ok m') by (cbn [step]; unfold GetPsddLiteralNode; unfold lit_var in Ep; rewrite Ep, E; reflexivity).
  destruct (st_step n ops m (OLit l 0) (MkN p 0 (BLit l)) i m' S SV I eq_refl E ES) as (S' & V & X & nd & E1 & Q & _ & F).
  exists i, m'. split; auto. split; auto. split; auto. exists nd. split; auto.
  unfold equiv, node_less in Q. simpl in F. rewrite F in Q. simpl in Q. destruct (n_body nd) as [l'| |]; try discriminate. apply andb_true_iff in Q as [Q1 Q2].
  apply negb_true_iff in Q1, Q2. apply Z.ltb_ge in Q1, Q2. f_equal. lia.
Qed.
Lemma st_dec n ops (m : mgr) p vl vr (es : list (elem P)) : st n ops m -> subtree (ll n) p = Some (VNode vl vr) -> es <> [] -> direct m p es -> Forall (fun e => W (e_param e)) es -> (map e_param es = [w1] \/ map e_param es = [w; w]) ->
  exists i m', st n (ops ++ [ODec (map e_prime es) (map e_sub es) (map e_param es) 0]) m' /\ vt_of (m_heap m') i = Some p /\ (exists l, m_heap m' = m_heap m ++ l) /\
    exists nd es', nth_error (m_heap m') i = Some nd /\ n_body nd = BDec es' /\ Permutation (map e_prime es) (map e_prime es').
Proof.
  intros S SV NE D FW PO. rewrite <- (st_vt _ _ _ S) in SV. pose proof (conformed_direct m p vl vr es 0 SV NE D) as EC.
  destruct (GetUniqueNode m (MkN p 0 (BDec (sort_elems es)))) as [i m'] eqn:E.
  assert (NO : node_ok (m_vt m) (m_heap m) (length (m_heap m)) (MkN p 0 (BDec (sort_elems es)))).
  { simpl. split; [|split; eauto].
    - intros Z. apply NE. pose proof (sort_elems_perm es) as PS. rewrite Z in PS. apply Permutation_nil in PS. auto.
    - apply Forall_forall. intros e He. apply (Permutation_in _ (sort_elems_perm es)) in He.
      unfold direct in D. rewrite Forall_forall in D. destruct (D e He) as [A B]. repeat split; auto; eapply vt_of_lt; eauto. }
  assert (SP : same_param (MkN p 0 (BDec (sort_elems es)))).
  { unfold same_param. cbn [n_body]. apply Forall_forall. intros e He. apply (Permutation_in _ (sort_elems_perm es)) in He. rewrite Forall_forall in FW. auto. }
  assert (ES : step m (ODec (map e_prime es) (map e_sub es) (map e_param es) 0) = Ok m') by (cbn [step]; rewrite EC; reflexivity).
  destruct (st_step n ops m (ODec (map e_prime es) (map e_sub es) (map e_param es) 0) _ i m' S NO SP (conj eq_refl PO) E ES) as (S' & V & X & nd & E1 & Q & SP' & F).
  exists i, m'. split; auto. split; auto. split; auto. exists nd.
  destruct (n_body nd) as [| |es'] eqn:Eb.
  1,2: exfalso; unfold equiv, node_less in Q; simpl in F; rewrite F in Q; simpl in Q; rewrite Eb in Q; discriminate.
  exists es'. split; auto. split; auto. destruct (same_shape _ _ _ _ SP SP' Q eq_refl Eb) as [Q1 _]. rewrite <- Q1. apply Permutation_map, Permutation_sym, sort_elems_perm.
Qed.

(** Node [i] answers "no" after at least [c] calls whatever is added to the heap, if variable 1 is observed to be false. *)
Definition slow (h : heap) (d c i : nat) : Prop := forall l ev f, ev 1%N = Some false -> d < f ->
  exists k, consistent_calls f (h ++ l) ev i = Ok (false, k) /\ c <= k.
Lemma slow_app h l d c i : slow h d c i -> slow (h ++ l) d c i.
Proof. intros S l' ev f H L. rewrite <- app_assoc. apply S; auto. Qed.
Lemma slow_dec h i nd es d c : nth_error h i = Some nd -> n_body nd = BDec es -> Forall (fun e => slow h d c (e_prime e)) es -> slow h (S d) (length es * c) i.
Proof.
  intros E B F l ev f H L. destruct f as [|f]; [lia|]. cbn [consistent_calls]. unfold node_of. rewrite nth_error_app1 by (apply nth_error_Some; congruence). rewrite E. cbn [get bind]. rewrite B.
  assert (K : forall k, exists k', (fix go (es : list (elem P)) (k : nat) : res (bool * nat) :=
             match es with
             | [] => Ok (false, k)
             | e :: es' =>
                 do (a, k1) <- consistent_calls f (h ++ l) ev (e_prime e) ;;
                 if (a : bool) then
                   do (b, k2) <- consistent_calls f (h ++ l) ev (e_sub e) ;;
                   if (b : bool) then Ok (true, k + k1 + k2) else go es' (k + k1 + k2)
                 else go es' (k + k1)
             end) es k = Ok (false, k') /\ k + length es * c <= k').
  { clear B. induction F as [|e es Fe F IH]; intros k; [exists k; split; [reflexivity|cbn; lia]|]. destruct (Fe l ev f H ltac:(lia)) as (k1 & -> & L1). cbn [bind].
    destruct (IH (k + k1)) as (k' & -> & L2). exists k'. split; auto. cbn [length]. lia. }
  destruct (K 1) as (k' & -> & L'). exists k'. split; auto. lia.
Qed.
Lemma slow_lit h i nd : nth_error h i = Some nd -> n_body nd = BLit 1 -> slow h 0 1 i.
Proof.
  intros E B l ev f H L. destruct f as [|f]; [lia|]. cbn [consistent_calls]. unfold node_of. rewrite nth_error_app1 by (apply nth_error_Some; congruence). rewrite E. cbn [get bind]. rewrite B.
  change (lit_var 1) with 1%N. rewrite H. exists 1. split; [reflexivity|lia].
Qed.
(** One decision node over the pair [A], [B] with two literals *)
Lemma level n ops (m : mgr) k A B : st n ops m -> S k <= n -> vt_of (m_heap m) A = Some (repeat false (n - k)) -> vt_of (m_heap m) B = Some (repeat false (n - k)) ->
  slow (m_heap m) (S k) (2 ^ k) A -> slow (m_heap m) (S k) (2 ^ k) B ->
  exists ops' m' A' B', st n (ops ++ ops') m' /\ length ops' = 4 /\ vt_of (m_heap m') A' = Some (repeat false (n - S k)) /\ vt_of (m_heap m') B' = Some (repeat false (n - S k)) /\
    slow (m_heap m') (S (S k)) (2 ^ S k) A' /\ slow (m_heap m') (S (S k)) (2 ^ S k) B'.
Proof.
  intros S0 L VA VB SA SB. set (p := repeat false (n - S k)). set (v := (N.of_nat k + 3)%N).
  assert (PF : repeat false (n - k) = false :: p) by (unfold p; replace (n - k) with (S (n - S k)) by lia; reflexivity). rewrite PF in VA, VB.
  assert (SV : subtree (ll n) p = Some (VNode (ll k) (Leaf v))) by (apply (ll_sub n (n - S k) (S k)); lia).
  assert (LV : forall z, lit_var z = v -> subtree (ll n) (true :: p) = Some (Leaf (lit_var z))) by (intros z ->; cbn [subtree]; rewrite SV; reflexivity).
  destruct (st_lit n ops m (Z.of_N v) (true :: p) S0) as (x & m1 & S1 & V1 & (l1 & H1) & _). { apply LV. unfold lit_var, v. lia. }
  destruct (st_lit n _ m1 (- Z.of_N v) (true :: p) S1) as (y & m2 & S2 & V2 & (l2 & H2) & _). { apply LV. unfold lit_var, v. lia. }
  assert (VX : vt_of (m_heap m2) x = Some (true :: p)) by (rewrite H2; apply vt_of_app; auto).
  assert (VA2 : vt_of (m_heap m2) A = Some (false :: p)) by (rewrite H2, H1; do 2 apply vt_of_app; auto).
  assert (VB2 : vt_of (m_heap m2) B = Some (false :: p)) by (rewrite H2, H1; do 2 apply vt_of_app; auto).
  assert (SA2 : slow (m_heap m2) (S k) (2 ^ k) A) by (rewrite H2, H1; do 2 apply slow_app; auto).
  assert (SB2 : slow (m_heap m2) (S k) (2 ^ k) B) by (rewrite H2, H1; do 2 apply slow_app; auto).
  destruct (st_dec n _ m2 p (ll k) (Leaf v) [MkE A x w; MkE B y w] S2 SV) as (A' & m3 & S3 & V3 & (l3 & H3) & nd3 & es3 & N3 & B3 & P3);
    [discriminate|unfold direct; repeat constructor; auto|repeat (constructor; auto)|cbn [map e_param]; auto|].
  destruct (st_dec n _ m3 p (ll k) (Leaf v) [MkE A y w; MkE B x w] S3 SV) as (B' & m4 & S4 & V4 & (l4 & H4) & nd4 & es4 & N4 & B4 & P4);
    [discriminate|unfold direct; rewrite H3; repeat constructor; cbn [e_prime e_sub]; apply vt_of_app; auto|repeat (constructor; auto)|cbn [map e_param]; auto|].
  cbn [map e_prime e_sub e_param] in *.
  assert (G : forall h i nd es, nth_error h i = Some nd -> n_body nd = BDec es -> Permutation [A; B] (map e_prime es) -> slow h (S k) (2 ^ k) A -> slow h (S k) (2 ^ k) B -> slow h (S (S k)) (2 ^ S k) i).
  { intros h i nd es N1 B1 P1 Q1 Q2. pose proof (Permutation_length P1) as LN. rewrite map_length in LN. cbn [length] in LN.
    replace (2 ^ S k) with (length es * 2 ^ k) by (rewrite <- LN; reflexivity). eapply slow_dec; eauto.
    apply Forall_forall. intros e He. assert (In (e_prime e) [A; B]) as [<-|[<-|[]]]; auto. eapply Permutation_in; [apply Permutation_sym, P1|apply in_map, He]. }
  eexists (_ :: _ :: _ :: [_]), m4, A', B'. split; [rewrite <- !app_assoc in S4; exact S4|]. split; [reflexivity|]. split; [rewrite H4; apply vt_of_app; auto|]. split; [auto|]. split.
  - rewrite H4. apply slow_app. eapply G; eauto; rewrite H3; apply slow_app; auto.
  - eapply G; eauto; rewrite H4, H3; do 2 apply slow_app; auto.
Qed.
Lemma build n : forall k, k <= n -> exists ops m A B, st n ops m /\ length ops = 5 + 4 * k /\ vt_of (m_heap m) A = Some (repeat false (n - k)) /\ vt_of (m_heap m) B = Some (repeat false (n - k)) /\
  slow (m_heap m) (S k) (2 ^ k) A /\ slow (m_heap m) (S k) (2 ^ k) B.
Proof.
  induction k as [|k IH]; intros L.
  - rewrite Nat.sub_0_r. set (p := repeat false n). assert (SV : subtree (ll n) p = Some (VNode (Leaf 1) (Leaf 2))) by (apply (ll_sub n n 0); lia).
    destruct (st_lit n [] _ 1 (false :: p) (st_new n)) as (a & m1 & S1 & V1 & _ & nd1 & N1 & B1). { cbn [subtree]. rewrite SV. reflexivity. }
    destruct (st_lit n _ m1 2 (true :: p) S1) as (x & m2 & S2 & V2 & (l2 & H2) & _). { cbn [subtree]. rewrite SV. reflexivity. }
    destruct (st_lit n _ m2 (-2) (true :: p) S2) as (y & m3 & S3 & V3 & (l3 & H3) & _). { cbn [subtree]. rewrite SV. reflexivity. }
    assert (SA : slow (m_heap m1) 0 1 a) by (eapply slow_lit; eauto).
    assert (VA : vt_of (m_heap m3) a = Some (false :: p)) by (rewrite H3, H2; do 2 apply vt_of_app; auto).
    assert (VX : vt_of (m_heap m3) x = Some (true :: p)) by (rewrite H3; apply vt_of_app; auto).
    assert (SA3 : slow (m_heap m3) 0 1 a) by (rewrite H3, H2; do 2 apply slow_app; auto).
    destruct (st_dec n _ m3 p _ _ [MkE a x w1] S3 SV) as (A & m4 & S4 & V4 & (l4 & H4) & nd4 & es4 & N4 & B4 & P4); [discriminate|unfold direct; repeat constructor; auto|repeat (constructor; auto)|cbn [map e_param]; auto|].
    destruct (st_dec n _ m4 p _ _ [MkE a y w1] S4 SV) as (B & m5 & S5 & V5 & (l5 & H5) & nd5 & es5 & N5 & B5 & P5);
      [discriminate|unfold direct; rewrite H4; repeat constructor; cbn [e_prime e_sub]; apply vt_of_app; auto|repeat (constructor; auto)|cbn [map e_param]; auto|].
    cbn [map e_prime e_sub e_param] in *.
    assert (G : forall h i nd es, nth_error h i = Some nd -> n_body nd = BDec es -> Permutation [a] (map e_prime es) -> slow h 0 1 a -> slow h 1 (2 ^ 0) i).
    { intros h i nd es E1 E2 PM Q. apply Permutation_length_1_inv in PM. destruct es as [|e [|e' es]]; try discriminate. injection PM as PM.
      apply (slow_dec h i nd [e] 0 1 E1 E2). constructor; auto. rewrite PM. auto. }
    eexists _, m5, A, B. split; [exact S5|]. split; [reflexivity|]. split; [rewrite H5; apply vt_of_app; auto|]. split; auto. split.
    + rewrite H5. apply slow_app. eapply G; eauto. rewrite H4. apply slow_app. auto.
    + eapply G; eauto. rewrite H5, H4. do 2 apply slow_app. auto.
  - destruct (IH ltac:(lia)) as (ops & m & A & B & S0 & LN & VA & VB & SA & SB).
    destruct (level n ops m k A B S0 L VA VB SA SB) as (ops' & m' & A' & B' & S1 & LN' & VA' & VB' & SA' & SB').
    exists (ops ++ ops'), m', A', B'. split; auto. split; [rewrite app_length; lia|]. auto.
Qed.
(** A node made in [4 n + 5] calls of the manager, on which the method is called [2 ^ n] times. *)
Theorem exponential n : exists (ops : list (@op P)) m i, runs (new_mgr (ll n)) ops = Ok m /\ Forall plain ops /\ length ops = 4 * n + 5 /\ length (m_heap m) <= 4 * n + 5 /\ i < length (m_heap m) /\ vt_of (m_heap m) i = Some [] /\
  forall ev f, ev 1%N = Some false -> n + 1 < f -> exists k, consistent_calls f (m_heap m) ev i = Ok (false, k) /\ 2 ^ n <= k.
Proof.
  destruct (build n n (le_n n)) as (ops & m & A & B & S0 & LN & VA & _ & SA & _). exists ops, m, A. split; [apply S0|]. split; [apply S0|]. split; [lia|]. split; [pose proof (st_len _ _ _ S0); lia|].
  split; [eapply vt_of_lt; eauto|]. rewrite Nat.sub_diag in VA. split; [exact VA|].
  intros ev f H L. destruct (SA [] ev f H ltac:(lia)) as (k & E & LK). rewrite app_nil_r in E. eauto.
Qed.
End Exp.
