(** Marginals and most probable instantiations with class PsddParameter itself (C92). *)
From Coq Require Import Reals Lra Lia.
From Verif Require Import Base Param ParamProofs Vtree VtreeProofs Spec SpecProofs Heap Manager HeapProofs SerProofs RepProofs OrderProofs ManagerExamples
  Query SampleProofs QueryExamples TransferProofs TransferOps TransferCode ApproxMpe.

Section Maps.
Context {P P' : pops} (f : P -> P').
Notation maph := (maph f). Notation mapn := (mapn f).
Definition mapp (p : P * P) : P' * P' := (f (fst p), f (snd p)).
Lemma node_of_map h i nd : node_of h i = Ok nd -> node_of (maph h) i = Ok (mapn nd).
Proof. unfold node_of, get. rewrite maph_nth. destruct (nth_error h i); intros E; [injection E as ->; reflexivity|discriminate]. Qed.

(** ** GetMarginals *)
Section Marg.
Context (H : phom P P' f).
Lemma push_map ud d w ds c ds' : marg_push ud d w ds c = Ok ds' -> marg_push ud (f d) (f w) (map f ds) c = Ok (map f ds').
Proof.
  unfold marg_push. intros E. bk E as k Ek. rewrite Ek. cbn [bind]. bk E as o Eo. injection E as <-. rewrite nth_error_map.
  destruct (nth_error ds k); [|discriminate]. injection Eo as ->. cbn [option_map get bind]. f_equal. unfold upd_nth.
  rewrite map_app, map_cons, firstn_map, skipn_map, (h_add H), (h_mul H). reflexivity.
Qed.
Definition like (mg : N -> option (P * P)) (mg' : N -> option (P' * P')) : Prop := forall v, mg' v = option_map mapp (mg v).
Lemma find_map mg mg' v : like mg mg' -> marg_find mg' v = mapp (marg_find mg v).
Proof. intros L. unfold marg_find. rewrite L. destruct (mg v); simpl; auto. unfold mapp. simpl. rewrite (h_zero H). reflexivity. Qed.
Lemma vset_like mg mg' v p : like mg mg' -> like (vset mg v (Some p)) (vset mg' v (Some (mapp p))).
Proof. intros L w. unfold vset. destruct (N.eqb w v); auto. Qed.
Lemma marg_step_map h ud ds mg mg' i ds1 mg1 : like mg mg' -> marg_step h ud (ds, mg) i = Ok (ds1, mg1) ->
  exists mg1', marg_step (maph h) ud (map f ds, mg') i = Ok (map f ds1, mg1') /\ like mg1 mg1'.
Proof.
  intros L E. unfold marg_step in E |- *. bk E as nd En. rewrite (node_of_map _ _ _ En). cbn [bind]. bk E as k Ek. rewrite Ek. cbn [bind].
  bk E as d Ed. rewrite nth_error_map. destruct (nth_error ds k) as [d0|]; [|discriminate]. injection Ed as ->. cbn [option_map get bind].
  unfold TransferProofs.mapn. cbn [n_body]. destruct (n_body nd) as [l|v pt pf|es]; cbn [mapb].
  - injection E as <- <-. eexists. split; [reflexivity|]. rewrite (find_map _ _ _ L). unfold mapp at 1 2. cbn [fst snd].
    destruct (lit_sign l); [replace (f (fst (marg_find mg (lit_var l))), padd (f (snd (marg_find mg (lit_var l)))) (f d)) with (mapp (fst (marg_find mg (lit_var l)), padd (snd (marg_find mg (lit_var l))) d))
      by (unfold mapp; simpl; rewrite (h_add H); reflexivity)|
      unfold mapp; cbn [fst snd]; replace (padd (f (fst (marg_find mg (lit_var l)))) (f d), f (snd (marg_find mg (lit_var l)))) with (mapp (padd (fst (marg_find mg (lit_var l))) d, snd (marg_find mg (lit_var l))))
      by (unfold mapp; simpl; rewrite (h_add H); reflexivity)]; apply vset_like; auto.
  - injection E as <- <-. eexists. split; [reflexivity|]. rewrite (find_map _ _ _ L). unfold mapp. cbn [fst snd]. rewrite <- !(h_mul H), <- !(h_add H).
    apply (vset_like mg mg' v (_, _) L).
  - bk E as ds2 E2. injection E as <- <-. exists mg'. split; auto.
    assert (forall es ds ds2, foldM (fun ds e => do ds1 <- marg_push ud d (e_param e) ds (e_prime e) ;; marg_push ud d (e_param e) ds1 (e_sub e)) es ds = Ok ds2 ->
      foldM (fun ds e => do ds1 <- marg_push ud (f d) (e_param e) ds (e_prime e) ;; marg_push ud (f d) (e_param e) ds1 (e_sub e)) (map (mape f) es) (map f ds) = Ok (map f ds2)) as FM.
    { clear - H. induction es as [|e es IH]; intros ds ds2 E; cbn [foldM map] in E |- *; [injection E as <-; reflexivity|].
      bk E as ds1 E1. bk E1 as ds0 E0. cbn [mape e_param e_prime e_sub]. rewrite (push_map _ _ _ _ _ _ E0). cbn [bind]. rewrite (push_map _ _ _ _ _ _ E1). cbn [bind]. auto. }
    rewrite (FM _ _ _ E2). reflexivity.
Qed.
Lemma marg_fold_map h ud : forall L ds mg mg' ds1 mg1, like mg mg' -> foldM (marg_step h ud) L (ds, mg) = Ok (ds1, mg1) ->
  exists mg1', foldM (marg_step (maph h) ud) L (map f ds, mg') = Ok (map f ds1, mg1') /\ like mg1 mg1'.
Proof.
  induction L as [|i L IH]; intros ds mg mg' ds1 mg1 LK E; cbn [foldM] in E |- *; [injection E as <- <-; eauto|].
  bk E as [ds2 mg2] E1. destruct (marg_step_map _ _ _ _ _ _ _ _ LK E1) as (mg2' & -> & LK2). cbn [bind]. eauto.
Qed.
(** The sums the marginals are divided by are not zero when the marginals are not both zero. *)
Theorem marginals_map h L mg : GetMarginals h L = Ok mg -> (forall v pf pt, mg v = Some (pf, pt) -> peq pf pzero = false \/ peq pt pzero = false) ->
  exists mg', GetMarginals (maph h) L = Ok mg' /\ like mg mg'.
Proof.
  unfold GetMarginals. destruct L as [|r L]; [discriminate|]. intros E NZ. bk E as [ds mg0] E1. injection E as <-. cbn [snd] in NZ.
  destruct (marg_fold_map h (marg_index (r :: L)) (r :: L) _ (fun _ => None) (fun _ => None) _ _ (fun _ => eq_refl) E1) as (mg1 & E2 & LK).
  assert (map f (pone :: map (fun _ => pzero) L) = pone :: map (fun _ => pzero) L) as EM.
  { simpl. rewrite (h_one H), map_map. f_equal. apply map_ext. intros _. apply (h_zero H). }
  rewrite EM in E2. rewrite E2. cbn [bind snd]. eexists. split; [reflexivity|]. intros v. specialize (LK v). rewrite LK. specialize (NZ v).
  destruct (mg0 v) as [[a b]|]; [|reflexivity]. cbn [option_map mapp fst snd]. specialize (NZ _ _ eq_refl). unfold mapp. cbn [fst snd].
  assert (peq (padd a b) pzero = false) as Z by (destruct NZ as [N|N]; eapply (div_nonzero f H); eauto).
  rewrite <- (h_add H), !(h_div H) by auto. reflexivity.
Qed.
End Marg.

(** ** GetMPESolution: [Q i] holds of the values that the comparison sees at node i. *)
Section Mpe.
Context (h : heap P) (Q : nat -> P -> Prop) (f_one : f pone = pone) (f_zero : f pzero = pzero) (f_mul : forall a b, f (pmul a b) = pmul (f a) (f b)).
Context (Q_lit : forall i nd l, nth_error h i = Some nd -> n_body nd = BLit l -> Q i pone).
Context (Q_top : forall i nd v pt pf, nth_error h i = Some nd -> n_body nd = BTop v pt pf -> Q i pt /\ Q i pf).
Context (Q_zero : forall i nd es, nth_error h i = Some nd -> n_body nd = BDec es -> Q i pzero).
Context (Q_mul : forall i nd es e a b, nth_error h i = Some nd -> n_body nd = BDec es -> In e es -> Q (e_prime e) a -> Q (e_sub e) b -> Q i (pmul (pmul a b) (e_param e))).
Context (Q_gt : forall i a b, Q i a -> Q i b -> pgt (f a) (f b) = pgt a b).
Definition mapv (p : P * nat) : P' * nat := (f (fst p), snd p).
Definition alike (c : nat -> option (P * nat)) (c' : nat -> option (P' * nat)) : Prop := forall i, c' i = option_map mapv (c i).
Definition known (c : nat -> option (P * nat)) : Prop := forall i p, c i = Some p -> Q i (fst p).
Lemma best_map i nd es c c' : nth_error h i = Some nd -> n_body nd = BDec es -> alike c c' -> known c -> forall l st st1, incl l es -> Q i (fst (fst st)) ->
  foldM (mpe_elem c) l st = Ok st1 -> Q i (fst (fst st1)) /\
  foldM (mpe_elem c') (map (mape f) l) (mapv (fst st), snd st) = Ok (mapv (fst st1), snd st1).
Proof.
  intros Ei Eb A K. induction l as [|e l IH]; intros [[best idx] k] st1 I QB E; cbn [foldM map] in E |- *; [injection E as <-; auto|].
  bk E as st2 E1. unfold mpe_elem in E1 |- * at 1. bk E1 as a Ea. bk E1 as b Eb'. cbn [mape e_prime e_sub e_param mapv fst snd]. rewrite !A.
  destruct (c (e_prime e)) as [pa|] eqn:Ca; [|discriminate]. destruct (c (e_sub e)) as [pb|] eqn:Cb; [|discriminate]. injection Ea as ->. injection Eb' as ->.
  cbn [option_map get bind mapv fst snd].
  assert (Q i (pmul (pmul (fst a) (fst b)) (e_param e))) as QV by (eapply Q_mul; eauto; apply I; left; auto).
  rewrite <- !f_mul, (Q_gt i) by auto. cbn [fst] in QB.
  destruct (pgt (pmul (pmul (fst a) (fst b)) (e_param e)) best); injection E1 as <-; (eapply (IH (_, _, _)); [intros x Hx; apply I; right; auto|auto|exact E]).
Qed.
Lemma mpe_step_map i c c' c1 : alike c c' -> known c -> mpe_step h c i = Ok c1 -> known c1 /\ exists c1', mpe_step (maph h) c' i = Ok c1' /\ alike c1 c1'.
Proof.
  intros A K E. unfold mpe_step in E |- *. bk E as nd En. rewrite (node_of_map _ _ _ En). cbn [bind].
  assert (nth_error h i = Some nd) as Ei by (unfold node_of, get in En; destruct (nth_error h i); congruence).
  bk E as r Er. injection E as <-.
  assert (Q i (fst r) /\ mpe_node c' (mapn nd) = Ok (mapv r)) as [QR ->].
  { unfold mpe_node in Er |- *. unfold TransferProofs.mapn. cbn [n_body]. destruct (n_body nd) as [l|v pt pf|es] eqn:Eb; cbn [mapb].
    - injection Er as <-. split; [eapply Q_lit; eauto|]. unfold mapv. cbn [fst snd]. rewrite f_one. reflexivity.
    - destruct (Q_top _ _ _ _ _ Ei Eb) as [Q1 Q2]. rewrite (Q_gt i) by auto. destruct (pgt pt pf); injection Er as <-; auto.
    - unfold mpe_best in Er |- *. bk Er as st Est. injection Er as <-.
      destruct (best_map i nd es c c' Ei Eb A K es (pzero, 0, 0) st) as [Q1 Q2]; [apply incl_refl|eapply Q_zero; eauto|exact Est|]. split; auto.
      unfold mapv in Q2 at 1. cbn [fst snd] in Q2. rewrite f_zero in Q2. rewrite Q2. reflexivity. }
  cbn [bind]. split.
  - intros j p E. unfold set_ud in E. destruct (Nat.eqb j i) eqn:Ej; [|eauto]. injection E as <-. apply Nat.eqb_eq in Ej. subst j. auto.
  - eexists. split; [reflexivity|]. intros j. unfold set_ud. destruct (Nat.eqb j i); auto.
Qed.
Lemma mpe_fold_map : forall l c c' c1, alike c c' -> known c -> foldM (mpe_step h) l c = Ok c1 -> known c1 /\ exists c1', foldM (mpe_step (maph h)) l c' = Ok c1' /\ alike c1 c1'.
Proof.
  induction l as [|i l IH]; intros c c' c1 A K E; cbn [foldM] in E |- *; [injection E as <-; eauto|].
  bk E as c2 E1. destruct (mpe_step_map _ _ _ _ A K E1) as (K2 & c2' & -> & A2). cbn [bind]. eauto.
Qed.
Lemma mpe_queue_map c c' : alike c c' -> forall fuel queue x, mpe_queue fuel (maph h) c' queue x = mpe_queue fuel h c queue x.
Proof.
  intros A. induction fuel as [|fuel IH]; intros [|i queue] x; cbn [mpe_queue]; auto. unfold node_of. rewrite maph_nth. destruct (nth_error h i) as [nd|]; [|reflexivity].
  cbn [option_map get bind]. unfold TransferProofs.mapn. cbn [n_body]. destruct (n_body nd) as [l|v pt pf|es]; cbn [mapb].
  - apply IH.
  - rewrite A. destruct (c i) as [r|]; cbn [option_map get bind mapv snd]; auto.
  - rewrite A. destruct (c i) as [r|]; cbn [option_map get bind mapv snd]; auto. rewrite nth_error_map. destruct (nth_error es (snd r)) as [e|]; cbn [option_map get bind mape e_prime e_sub]; auto.
Qed.
Theorem mpe_map fuel L x v ud' : GetMPESolution fuel h L (fun _ => None) = Ok (x, v, ud') ->
  Q (hd 0 L) v /\ exists ud2, GetMPESolution fuel (maph h) L (fun _ => None) = Ok (x, f v, ud2).
Proof.
  unfold GetMPESolution. intros E. bk E as c Ec. bk E as r Er. bk E as p Ep. bk E as y Ey. injection E as <- <- <-.
  destruct (mpe_fold_map (rev L) (fun _ => None) (fun _ => None) c) as (K & c' & E' & A); [intros i; reflexivity|intros i q; discriminate|auto|].
  rewrite E', Er. cbn [bind]. rewrite A. destruct (c r) as [q|] eqn:Cr; [|discriminate]. injection Ep as ->. cbn [option_map get bind].
  rewrite (mpe_queue_map c c' A), Ey. cbn [bind mapv fst]. split; [|eauto].
  unfold front in Er. destruct L as [|r0 L]; [discriminate|]. injection Er as ->. exact (K _ _ Cr).
Qed.
End Mpe.
End Maps.

(** ** The class PsddParameter *)
Local Open Scope R_scope.
(** Logarithms of absolute value at most B *)
Definition within (B : R) (a : lnum) : Prop := lval a = 0 \/ Rabs (ln (lval a)) <= B.
Lemma within_range B a : within B a -> B * 10000000 < IZR (2 ^ 63) -> in_range (mkp (lx a)).
Proof.
  intros W L. destruct a as [|r]; [exact I|]. change (Rabs (r * 10000000) < IZR (2 ^ 63)). destruct W as [W|W]; simpl in W; [pose proof (exp_pos r); lra|]. rewrite ln_exp in W.
  rewrite Rabs_mult, (Rabs_right 10000000) by lra. eapply Rle_lt_trans; [|exact L]. apply Rmult_le_compat_r; lra.
Qed.
Lemma within_mul A B a b : within A a -> within B b -> within (A + B) (l_mul a b).
Proof.
  destruct a as [|x], b as [|y]; simpl; intros WA WB; try (left; reflexivity). right. unfold l_mul, p_mul. simpl.
  destruct WA as [WA|WA]; simpl in WA; [pose proof (exp_pos x); lra|]. destruct WB as [WB|WB]; simpl in WB; [pose proof (exp_pos y); lra|].
  rewrite ln_exp in *. eapply Rle_trans; [apply Rabs_triang|]. lra.
Qed.
Lemma within_le A B a : within A a -> A <= B -> within B a.
Proof. intros [W|W] L; [left; auto|right; lra]. Qed.
Lemma subtree_vsize : forall p t s, subtree t p = Some s -> (vsize s <= vsize t)%nat.
Proof.
  induction p as [|b p IH]; intros t s E; cbn [subtree] in E; [injection E as ->; auto|].
  destruct (subtree t p) as [u|] eqn:U; [|discriminate]. apply IH in U. destruct u as [v|l r]; simpl in E; [discriminate|]. destruct b; injection E as <-; simpl in *; lia.
Qed.
Section Code.
Context (m : mgr Lexact) (B : R).
Context (HO : heap_ok (m_vt m) (m_heap m)) (B0 : 0 <= B) (HB : forall a, In a (flat_map nparams (m_heap m)) -> within B a).
Context (HS : B * INR (vsize (m_vt m)) * 10000000 < IZR (2 ^ 63)).
Let h : heap Ltrunc := maph trunc_of (m_heap m).
Definition seen (i : nat) (v : Ltrunc) : Prop :=
  exists p s, vt_of (m_heap m) i = Some p /\ subtree (m_vt m) p = Some s /\ within (B * INR (vsize s)) v.
Lemma code_twice : maph (P := Ltrunc) (P' := Lcode) code_of h = maph code_of (m_heap m).
Proof.
  unfold h, maph. rewrite map_map. apply map_ext. intros nd. unfold mapn. simpl. f_equal. destruct (n_body nd) as [l|v a b|es]; simpl; auto. f_equal. rewrite map_map. apply map_ext. reflexivity.
Qed.
Lemma param_in i nd a : nth_error (m_heap m) i = Some nd -> In a (nparams nd) -> within B a.
Proof. intros E Ha. apply HB, in_flat_map. exists nd. split; auto. eapply nth_error_In; eauto. Qed.
Lemma unmap i (nd : node Ltrunc) : nth_error h i = Some nd -> exists nd0, nth_error (m_heap m) i = Some nd0 /\ nd = mapn trunc_of nd0 /\ vt_of (m_heap m) i = Some (n_vt nd0).
Proof.
  intros E. unfold h in E. rewrite maph_nth in E. destruct (nth_error (m_heap m) i) as [nd0|] eqn:E0; [|discriminate]. injection E as <-. exists nd0. split; auto. split; auto.
  unfold vt_of. rewrite E0. reflexivity.
Qed.
Theorem mpe_code fuel L x v ud' : @GetMPESolution Ltrunc fuel h L (fun _ => None) = Ok (x, v, ud') ->
  exists ud2, GetMPESolution fuel (maph code_of (m_heap m)) L (fun _ => None) = Ok (x, code_of v, ud2).
Proof.
  intros E. rewrite <- code_twice. refine (proj2 (mpe_map (P := Ltrunc) (P' := Lcode) code_of h seen _ _ _ _ _ _ _ _ fuel L x v ud' E)).
  - exact (nat_log 1).
  - reflexivity.
  - intros a b. exact (h_mul code_hom a b).
  - intros i nd l Ei Eb. destruct (unmap i nd Ei) as (nd0 & E0 & -> & V). pose proof (HO _ _ E0) as K. unfold node_ok in K.
    destruct (n_body nd0) as [l0|v0 pt pf|es] eqn:Eb0; unfold mapn in Eb; cbn [n_body] in Eb; rewrite Eb0 in Eb; try discriminate.
    exists (n_vt nd0), (Leaf (lit_var l0)). split; auto. split; auto. right. change (lval (@pone Ltrunc)) with (lval (@pone Lexact)). rewrite (val_one Lexact_exact), ln_1, Rabs_R0. simpl. lra.
  - intros i nd v0 pt pf Ei Eb. destruct (unmap i nd Ei) as (nd0 & E0 & -> & V). pose proof (HO _ _ E0) as K. unfold node_ok in K.
    destruct (n_body nd0) as [l0|v1 pt0 pf0|es] eqn:Eb0; unfold mapn in Eb; cbn [n_body] in Eb; rewrite Eb0 in Eb; try discriminate. injection Eb as -> <- <-.
    assert (forall a, In a (nparams nd0) -> seen i (trunc_of a)) as S.
    { intros a Ha. exists (n_vt nd0), (Leaf v0). split; auto. split; auto. simpl. rewrite Rmult_1_r. eapply param_in; eauto. }
    split; apply S; unfold nparams; rewrite Eb0; simpl; auto.
  - intros i nd es Ei Eb. destruct (unmap i nd Ei) as (nd0 & E0 & -> & V). pose proof (HO _ _ E0) as K. unfold node_ok in K.
    destruct (n_body nd0) as [l0|v1 pt0 pf0|es0] eqn:Eb0; unfold mapn in Eb; cbn [n_body] in Eb; rewrite Eb0 in Eb; try discriminate.
    destruct K as (_ & (l & r & S) & _). exists (n_vt nd0), (VNode l r). split; auto. split; auto. left. reflexivity.
  - intros i nd es e a b Ei Eb He (p1 & s1 & V1 & S1 & W1) (p2 & s2 & V2 & S2 & W2). destruct (unmap i nd Ei) as (nd0 & E0 & -> & V). pose proof (HO _ _ E0) as K. unfold node_ok in K.
    destruct (n_body nd0) as [l0|v1 pt0 pf0|es0] eqn:Eb0; unfold mapn in Eb; cbn [n_body] in Eb; rewrite Eb0 in Eb; try discriminate. cbn [mapb] in Eb. injection Eb as <-.
    apply in_map_iff in He as (e0 & <- & He). destruct K as (_ & (l & r & S) & F). rewrite Forall_forall in F. destruct (F e0 He) as (_ & _ & F1 & F2). cbn [mape e_prime e_sub e_param] in *.
    exists (n_vt nd0), (VNode l r). split; auto. split; auto. rewrite F1 in V1. injection V1 as <-. rewrite F2 in V2. injection V2 as <-. cbn [subtree] in S1, S2. rewrite S in S1, S2. simpl in S1, S2. injection S1 as <-. injection S2 as <-.
    eapply within_le; [eapply within_mul; [eapply within_mul; [exact W1|exact W2]|]|].
    + eapply param_in; [exact E0|]. unfold nparams. rewrite Eb0. exact (in_map e_param _ _ He).
    + replace (INR (vsize (VNode l r))) with (INR (vsize l) + INR (vsize r) + 1) by (rewrite <- plus_INR, <- S_INR; f_equal; simpl; lia). right. ring.
  - intros i a b (p1 & s1 & V1 & S1 & W1) (p2 & s2 & V2 & S2 & W2). rewrite V1 in V2. injection V2 as <-. rewrite S1 in S2. injection S2 as <-.
    assert (B * INR (vsize s1) * 10000000 < IZR (2 ^ 63)) as R.
    { eapply Rle_lt_trans; [|exact HS]. apply Rmult_le_compat_r; [lra|]. apply Rmult_le_compat_l; auto. apply le_INR. eapply subtree_vsize; eauto. }
    destruct (trunc_instance a b) as (_ & _ & G & _); [eapply within_range; eauto..|]. exact G.
Qed.
End Code.
