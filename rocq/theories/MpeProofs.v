(** GetMPESolution, GetMarginals and DirectSample (C22, C23, C31). *)
From Coq Require Import Reals Lra.
From Verif Require Import Base Param Vtree VtreeProofs Spec SpecProofs Heap Manager HeapProofs SerProofs RepProofs LoadProofs
  MulProofs TreeProofs Query QueryProofs.

Lemma set_ud_same {A} (u : nat -> option A) i a : set_ud u i a i = a.
Proof. unfold set_ud. rewrite Nat.eqb_refl. reflexivity. Qed.
Lemma set_ud_other {A} (u : nat -> option A) i a j : j <> i -> set_ud u i a j = u j.
Proof. unfold set_ud. intros H. apply Nat.eqb_neq in H. rewrite H. reflexivity. Qed.

Section Mpe.
Context {P : pops} (val : P -> R) (HP : pexact P val).
Notation heap := (heap P). Notation mgr := (mgr P). Notation node := (node P).
Notation Rep := (Rep val).
Context (vroot : vtree) (h : heap) (HO : heap_ok vroot h) (root : nat) (L : list nat) (SO : ser_of h root L).

Definition mpe_rel (r : option (P * nat)) (t : ptree) : Prop :=
  exists v, r = Some (v, snd (tmpe t)) /\ val v = fst (tmpe t).
Lemma mpe_best_spec c es tes : Forall2 (elem_rel val mpe_rel c) es tes ->
  exists v, mpe_best c es = Ok (v, snd (tmpe (TDec tes))) /\ val v = fst (tmpe (TDec tes)).
Proof.
  intros F. unfold mpe_best.
  assert (forall best rbest idx k, val best = rbest -> exists b' k',
    foldM (mpe_elem c) es (best, idx, k) =
      Ok (b', snd (fst (fold_left (fun st v => let '(best, idx, k) := st in if Rlt_dec best v then (v, k, S k) else (best, idx, S k))
          (map (fun e : telem => (fst (tmpe (fst (fst e))) * fst (tmpe (snd (fst e))) * snd e)%R) tes) (rbest, idx, k))), k') /\
      val b' = fst (fst (fold_left (fun st v => let '(best, idx, k) := st in if Rlt_dec best v then (v, k, S k) else (best, idx, S k))
          (map (fun e : telem => (fst (tmpe (fst (fst e))) * fst (tmpe (snd (fst e))) * snd e)%R) tes) (rbest, idx, k)))) as K.
  { induction F as [|e te es tes (A & B & C) F IH]; intros best rbest idx k Hb.
    - simpl. eauto.
    - destruct A as (va & A1 & A2), B as (vb & B1 & B2). cbn [foldM map fold_left].
      assert (mpe_elem c (best, idx, k) e = Ok (if pgt (pmul (pmul va vb) (e_param e)) best then (pmul (pmul va vb) (e_param e), k, S k) else (best, idx, S k))) as ->.
      { unfold mpe_elem. rewrite A1, B1. reflexivity. }
      cbn [bind].
      set (v := pmul (pmul va vb) (e_param e)).
      assert (val v = (fst (tmpe (fst (fst te))) * fst (tmpe (snd (fst te))) * snd te)%R) as Ev.
      { unfold v. rewrite !(val_mul HP), A2, B2, <- C. reflexivity. }
      rewrite <- Ev. destruct (Rlt_dec rbest (val v)) as [G|G].
      + assert (pgt v best = true) as -> by (apply (val_gt HP); lra). apply IH. auto.
      + assert (pgt v best = false) as -> by (apply not_true_is_false; intros Q; apply (val_gt HP) in Q; lra). apply IH. auto. }
  destruct (K pzero 0%R 0 0 (val_zero HP)) as (b' & k' & E & V). rewrite E. cbn [bind fst]. exists b'. cbn [tmpe]. unfold scan. auto.
Qed.
Lemma mpe_phase1 ud : exists c, foldM (mpe_step h) (rev L) ud = Ok c /\ (forall i t, In i L -> Rep h i t -> mpe_rel (c i) t) /\ (forall i, ~ In i L -> c i = ud i).
Proof.
  apply (bottom_up _ (fun L2 c => (forall i t, In i L2 -> Rep h i t -> mpe_rel (c i) t) /\ (forall i, ~ In i L2 -> c i = ud i)) L ud).
  - intros L1 i L2 c EL [IH U].
    assert (i < length h) as Hi by (eapply ser_lt; eauto; rewrite EL; apply in_app_iff; right; left; auto).
    destruct (Rep_exists val vroot h HO i Hi) as [t HR].
    assert (exists nd r, nth_error h i = Some nd /\ mpe_node c nd = Ok r /\ mpe_rel (Some r) t) as (nd & r & En & Er & Hr).
    { inversion HR as [j nd l E1 E2|j nd v pt pf E1 E2|j nd es tes E1 E2 E3]; exists nd; unfold mpe_node; rewrite E2.
      - eexists. split; auto. split; [reflexivity|]. exists pone. split; auto. simpl. apply (val_one HP).
      - eexists. split; auto. split; [reflexivity|]. unfold mpe_rel. cbn [tmpe]. destruct (Rlt_dec (val pf) (val pt)) as [G|G].
        + assert (pgt pt pf = true) as -> by (apply (val_gt HP); auto). eauto.
        + assert (pgt pt pf = false) as -> by (apply not_true_is_false; intros Q; apply (val_gt HP) in Q; lra). eauto.
      - destruct (mpe_best_spec c es tes) as (v & B1 & B2).
        + eapply Forall2_impl_in; [|exact E3]. intros e te He _ (A & B & C).
          destruct (ser_elem h root L SO L1 i L2 nd es e EL E1 E2 He). split; auto.
        + eexists. split; auto. split; [exact B1|]. exists v. auto. }
    exists (set_ud c i (Some r)). unfold mpe_step, node_of. rewrite En. cbn [get bind]. rewrite Er. cbn [bind]. split; auto. split.
    + intros j t' Hj HR'. destruct (Nat.eq_dec j i) as [->|Nji].
      * rewrite set_ud_same. rewrite (Rep_fun val h t' i t HR' HR). auto.
      * rewrite set_ud_other by auto. destruct Hj as [->|Hj]; [congruence|]. auto.
    + intros j Hj. rewrite set_ud_other; [|intros ->; apply Hj; left; auto]. apply U. intros G. apply Hj. right; auto.
  - split; [intros i t []|auto].
Qed.
(** the queue: nodes paired with their tree and vtree *)
Definition q_ok (i : nat) (tv : ptree * vtree) : Prop := In i L /\ Rep h i (fst tv) /\ conforms (snd tv) (fst tv) /\ nonneg (fst tv).
Lemma list_sum_app_nat l1 l2 : list_sum (l1 ++ l2) = list_sum l1 + list_sum l2.
Proof. induction l1; simpl; lia. Qed.
Lemma mpe_queue_spec c : (forall i t, In i L -> Rep h i t -> mpe_rel (c i) t) -> forall fuel q tvs x, Forall2 q_ok q tvs -> list_sum (map (fun tv => vsize (snd tv)) tvs) <= fuel ->
  exists x', mpe_queue fuel h c q x = Ok x' /\ forall v, x' v = x v || existsb (fun tv => tbits (fst tv) v) tvs.
Proof.
  intros HC. induction fuel as [|fuel IH]; intros q tvs x F HF.
  - destruct F as [|i [t vt] q tvs Hi F]; [|destruct vt; simpl in HF; lia]. exists x. simpl. split; auto. intros v. rewrite orb_false_r. auto.
  - destruct F as [|i [t vt] q tvs (HiL & HR & C & NN) F]. { exists x. simpl. split; auto. intros v. rewrite orb_false_r. auto. }
    cbn [mpe_queue]. unfold node_of. destruct (HC i t HiL HR) as (mv & Mc & _). simpl in HR, C, NN, HF.
    inversion HR as [j nd l E1 E2|j nd w pt pf E1 E2|j nd es tes E1 E2 E3]; subst t; rewrite E1; cbn [get bind]; rewrite E2.
    + destruct (IH q tvs (if lit_sign l then vset x (lit_var l) true else x) F) as (x' & Ex & Hx). { destruct vt; simpl in HF; lia. }
      exists x'. split; auto. intros v. rewrite Hx. simpl. unfold lit_sign, lit_var. destruct (Z.ltb 0 l); simpl.
      * unfold vset. destruct (N.eqb v (Z.abs_N l)); simpl; [|auto]. rewrite orb_true_r. reflexivity.
      * rewrite andb_false_r. reflexivity.
    + rewrite Mc. cbn [get bind snd].
      set (k := snd (tmpe (TTop w (val pt) (val pf)))) in *.
      destruct (IH q tvs (if Nat.eqb k 0 then x else vset x w true) F) as (x' & Ex & Hx). { destruct vt; simpl in HF; lia. }
      exists x'. split; auto. intros v. rewrite Hx. cbn [existsb fst tbits]. fold k. destruct (Nat.eqb k 0); simpl.
      * rewrite andb_false_r. reflexivity.
      * unfold vset. destruct (N.eqb v w); simpl; [|auto]. rewrite orb_true_r. reflexivity.
    + destruct vt as [w|va vb]; [simpl in C; contradiction|]. destruct C as [NE C]. rewrite Forall_forall in C.
      rewrite Mc. cbn [get bind snd].
      destruct (tmpe_elem tes NN NE) as (te & Ete & _).
      assert (exists e, nth_error es (snd (tmpe (TDec tes))) = Some e /\ ElemRep val h e te) as (e & Ee & A & B & _).
      { clear - E3 Ete. revert Ete. generalize (snd (tmpe (TDec tes))). intros k. revert k. induction E3 as [|e te0 es tes HH F IH]; intros [|k] E; try discriminate.
        - injection E as ->. simpl. exists e. split; auto.
        - apply IH; auto. }
      rewrite Ee. cbn [get bind]. pose proof (tbits_dec tes te Ete) as TB. apply nth_error_In in Ete. apply nth_error_In in Ee.
      destruct (C te Ete) as [C1 C2]. apply all_nodes_dec in NN as [_ NN]. rewrite Forall_forall in NN. destruct (NN te Ete) as [N1 N2].
      assert (In (e_prime e) L /\ In (e_sub e) L) as [I1 I2].
      { split; apply (so_in _ _ _ SO); (eapply reach_snoc; [apply (so_in _ _ _ SO); exact HiL|exact E1|apply in_children; eauto 10]). }
      destruct (IH (q ++ [e_prime e; e_sub e]) (tvs ++ [(tp te, va); (ts te, vb)]) x) as (x' & Ex & Hx).
      { apply Forall2_app; auto. repeat constructor; simpl; auto. }
      { rewrite map_app, list_sum_app_nat. simpl. simpl in HF. lia. }
      exists x'. split; auto. intros v. rewrite Hx, existsb_app. cbn [existsb fst]. rewrite TB.
      destruct (x v), (existsb _ tvs), (tbits (tp te) v), (tbits (ts te) v); reflexivity.
Qed.
Lemma mpe_spec ud t s fuel : Rep h root t -> conforms s t -> nonneg t -> vsize s <= fuel ->
  exists x v ud', GetMPESolution fuel h L ud = Ok (x, v, ud') /\ (forall w, x w = tbits t w) /\ val v = fst (tmpe t) /\
    (forall i, In i L -> ud' i = None) /\ (forall i, ~ In i L -> ud' i = ud i).
Proof.
  intros HR C NN HF. destruct (mpe_phase1 ud) as (c & E & H & U). destruct (H root t (root_in h root L SO) HR) as (v & Ec & Ev).
  destruct (mpe_queue_spec c H fuel [root] [(t, s)] (fun _ => false)) as (x & Ex & Hx).
  { repeat constructor; simpl; auto. eapply root_in; eauto. }
  { simpl. lia. }
  unfold GetMPESolution. rewrite E, (front_root h root L SO). cbn [bind]. rewrite Ec. cbn [get bind]. rewrite Ex. cbn [bind fst].
  exists x, v, (clear_ud L c). split; auto. split; [intros w; rewrite Hx; simpl; apply orb_false_r|]. split; auto.
  split; intros i Hi; rewrite clear_ud_spec; destruct (memb i L) eqn:EM; auto; [apply memb_false in EM|apply memb_In in EM]; contradiction.
Qed.

End Mpe.

(** ** GetMarginals *)
Section Marg.
Context {P : pops} (val : P -> R) (HP : parith P val).
Notation heap := (heap P). Notation mgr := (mgr P). Notation node := (node P).
Notation Rep := (Rep val).
Context (vroot : vtree) (h : heap) (HO : heap_ok vroot h) (root : nat) (L : list nat) (SO : ser_of h root L).
Lemma rep_choice : exists T : nat -> ptree, forall i, i < length h -> Rep h i (T i).
Proof.
  assert (forall n, n <= length h -> exists T : nat -> ptree, forall i, i < n -> Rep h i (T i)) as K.
  { induction n as [|n IH]; intros Hn; [exists (fun _ => TLit 0); lia|]. destruct IH as [T HT]; [lia|].
    destruct (Rep_exists val vroot h HO n) as [t Ht]; [lia|]. exists (set_at T n t). intros i Hi.
    destruct (Nat.eq_dec i n) as [->|Ni]; [rewrite set_at_same; auto|]. rewrite set_at_other by auto. apply HT. lia. }
  apply (K (length h)); auto.
Qed.
Lemma marg_index_gen l : forall u k, NoDup l -> forall j, (forall p, nth_error l p = Some j -> fst (fold_left (fun st i => (set_ud (fst st) i (Some (snd st)), S (snd st))) l (u, k)) j = Some (k + p)) /\
  (~ In j l -> fst (fold_left (fun st i => (set_ud (fst st) i (Some (snd st)), S (snd st))) l (u, k)) j = u j).
Proof.
  induction l as [|a l IH]; intros u k ND j; [split; [intros [|p]; discriminate|auto]|]. inversion ND; subst. cbn [fold_left fst snd].
  destruct (IH (set_ud u a (Some k)) (S k) H2 j) as [A B]. split.
  - intros [|p] E.
    + injection E as ->. rewrite B by auto. rewrite set_ud_same. f_equal. lia.
    + rewrite (A p E). f_equal. lia.
  - intros NI. rewrite B; [|intros G; apply NI; right; auto]. apply set_ud_other. intros ->. apply NI. left; auto.
Qed.
Lemma marg_index_spec p j : nth_error L p = Some j -> marg_index L j = Some p.
Proof. intros E. destruct (marg_index_gen L (fun _ => None) 0 (so_nodup _ _ _ SO) j) as [A _]. unfold marg_index. rewrite (A p E). reflexivity. Qed.
Lemma nth_upd_nth {A} (l : list A) k a j : k < length l -> nth_error (upd_nth l k a) j = if Nat.eqb j k then Some a else nth_error l j.
Proof.
  revert k j. induction l as [|b l IH]; intros [|k] [|j] Hk; simpl in *; try lia; auto.
  specialize (IH k j). unfold upd_nth in *. simpl in *. apply IH. lia.
Qed.
Lemma upd_nth_length {A} (l : list A) k a : k < length l -> length (upd_nth l k a) = length l.
Proof. intros H. unfold upd_nth. rewrite app_length, firstn_length. cbn [length]. rewrite skipn_length. lia. Qed.

Context (v0 : N) (T : nat -> ptree) (HT : forall i, i < length h -> Rep h i (T i)).
Local Open Scope R_scope.
(** Mass still to be distributed: the derivative of an unprocessed node times its tree's marginal *)
Definition dval (ds : list P) (p : nat) : R := match nth_error ds p with Some d => val d | None => 0 end.
Definition mass (s : bool) (ds : list P) (ps : list nat) : R :=
  rsum (fun p => dval ds p * match nth_error L p with Some i => tmarg v0 s (T i) | None => 0 end) ps.
Definition got (s : bool) (mg : N -> option (P * P)) : R :=
  match mg v0 with Some (f, t) => if s then val t else val f | None => 0 end.
Lemma mass_upd s ds k d ps : NoDup ps -> (k < length ds)%nat -> In k ps ->
  mass s (upd_nth ds k d) ps = mass s ds ps + (val d - dval ds k) * match nth_error L k with Some i => tmarg v0 s (T i) | None => 0 end.
Proof.
  intros ND Hk I. unfold mass. induction ps as [|p ps IH]; [contradiction|]. inversion ND as [|? ? NI ND']; subst. cbn [rsum fold_right].
  fold (rsum (fun p0 => dval (upd_nth ds k d) p0 * match nth_error L p0 with Some i => tmarg v0 s (T i) | None => 0 end) ps).
  fold (rsum (fun p0 => dval ds p0 * match nth_error L p0 with Some i => tmarg v0 s (T i) | None => 0 end) ps).
  destruct (Nat.eq_dec p k) as [->|Np].
  - rewrite (rsum_ext (fun p0 => dval (upd_nth ds k d) p0 * _) (fun p0 => dval ds p0 * match nth_error L p0 with Some i => tmarg v0 s (T i) | None => 0 end)).
    + assert (dval (upd_nth ds k d) k = val d) as -> by (unfold dval; rewrite nth_upd_nth, Nat.eqb_refl; auto). lra.
    + intros p Hp. f_equal. unfold dval. rewrite nth_upd_nth by auto. destruct (Nat.eqb p k) eqn:E; auto. apply Nat.eqb_eq in E. subst. contradiction.
  - destruct I as [->|I]; [congruence|]. rewrite (IH ND' I).
    assert (dval (upd_nth ds k d) p = dval ds p) as -> by (unfold dval; rewrite nth_upd_nth by auto; apply Nat.eqb_neq in Np; rewrite Np; auto). lra.
Qed.
Lemma marg_push_spec s d w ds c p ps : nth_error L p = Some c -> NoDup ps -> In p ps -> length ds = length L ->
  exists ds', marg_push (marg_index L) d w ds c = Ok ds' /\ length ds' = length L /\
    mass s ds' ps = mass s ds ps + val d * val w * tmarg v0 s (T c) /\
    (forall q, q <> p -> nth_error ds' q = nth_error ds q).
Proof.
  intros Ep ND I HL. unfold marg_push. rewrite (marg_index_spec _ _ Ep). cbn [get bind].
  assert (p < length ds)%nat as Hp by (rewrite HL; apply nth_error_Some; congruence).
  destruct (nth_error ds p) as [old|] eqn:Eo; [|apply nth_error_None in Eo; lia]. cbn [get bind].
  eexists. split; [reflexivity|]. split; [rewrite upd_nth_length; auto|]. split.
  - rewrite mass_upd by auto. rewrite Ep. unfold dval. rewrite Eo, (val_add HP), (val_mul HP). lra.
  - intros q Nq. rewrite nth_upd_nth by auto. apply Nat.eqb_neq in Nq. rewrite Nq. auto.
Qed.
Lemma marg_elems_spec d ps : NoDup ps -> forall es ds, length ds = length L ->
  (forall e, In e es -> (exists p, nth_error L p = Some (e_prime e) /\ In p ps) /\ (exists p, nth_error L p = Some (e_sub e) /\ In p ps)) ->
  exists ds', foldM (fun ds e => do ds1 <- marg_push (marg_index L) d (e_param e) ds (e_prime e) ;; marg_push (marg_index L) d (e_param e) ds1 (e_sub e)) es ds = Ok ds' /\
    length ds' = length L /\
    (forall s, mass s ds' ps = mass s ds ps + val d * rsum (fun e => (tmarg v0 s (T (e_prime e)) + tmarg v0 s (T (e_sub e))) * val (e_param e)) es) /\
    (forall q, ~ In q ps -> nth_error ds' q = nth_error ds q).
Proof.
  intros ND. induction es as [|e es IH]; intros ds HL HE.
  - exists ds. split; auto. split; auto. split; auto. intros s. simpl. lra.
  - destruct (HE e (or_introl eq_refl)) as [(p & Ep & Ip) (p' & Ep' & Ip')].
    cbn [foldM].
    assert (exists ds1, marg_push (marg_index L) d (e_param e) ds (e_prime e) = Ok ds1 /\ length ds1 = length L /\
       (forall s, mass s ds1 ps = mass s ds ps + val d * val (e_param e) * tmarg v0 s (T (e_prime e))) /\ (forall q, q <> p -> nth_error ds1 q = nth_error ds q)) as (ds1 & E1 & L1 & M1 & U1).
    { destruct (marg_push_spec true d (e_param e) ds (e_prime e) p ps Ep ND Ip HL) as (da & Ea & La & Ma & Ua).
      destruct (marg_push_spec false d (e_param e) ds (e_prime e) p ps Ep ND Ip HL) as (db & Eb & Lb & Mb & Ub).
      rewrite Ea in Eb. injection Eb as <-. exists da. split; auto. split; auto. split; auto. intros [|]; auto. }
    assert (exists ds2, marg_push (marg_index L) d (e_param e) ds1 (e_sub e) = Ok ds2 /\ length ds2 = length L /\
       (forall s, mass s ds2 ps = mass s ds1 ps + val d * val (e_param e) * tmarg v0 s (T (e_sub e))) /\ (forall q, q <> p' -> nth_error ds2 q = nth_error ds1 q)) as (ds2 & E2 & L2 & M2 & U2).
    { destruct (marg_push_spec true d (e_param e) ds1 (e_sub e) p' ps Ep' ND Ip' L1) as (da & Ea & La & Ma & Ua).
      destruct (marg_push_spec false d (e_param e) ds1 (e_sub e) p' ps Ep' ND Ip' L1) as (db & Eb & Lb & Mb & Ub).
      rewrite Ea in Eb. injection Eb as <-. exists da. split; auto. split; auto. split; auto. intros [|]; auto. }
    rewrite E1. cbn [bind]. rewrite E2. cbn [bind].
    destruct (IH ds2 L2) as (ds' & E' & L' & M' & U'). { intros; apply HE; right; auto. }
    exists ds'. split; auto. split; auto. split.
    + intros s. rewrite M', M2, M1. simpl. lra.
    + intros q Nq. rewrite U' by auto. rewrite U2 by congruence. apply U1. congruence.
Qed.
Lemma marg_fold : exists ds mg, foldM (marg_step h (marg_index L)) L (pone :: map (fun _ => pzero) (tl L), fun _ => None) = Ok (ds, mg) /\
  (forall s, got s mg = tmarg v0 s (T root)) /\
  (mg v0 = None <-> forall i nd, In i L -> nth_error h i = Some nd -> match n_body nd with BLit l => lit_var l <> v0 | BTop w _ _ => w <> v0 | BDec _ => True end).
Proof.
  pose (init := (@pone P :: map (fun _ => pzero) (tl L), fun _ : N => @None (P * P))).
  destruct (so_head _ _ _ SO) as [l0 El0].
  destruct (top_down (marg_step h (marg_index L)) (fun L1 st => let '(ds, mg) := st in length ds = length L /\
     (forall s, got s mg + mass s ds (seq (length L1) (length L - length L1)) = tmarg v0 s (T root)) /\
     (mg v0 = None <-> forall i nd, In i L1 -> nth_error h i = Some nd -> match n_body nd with BLit l => lit_var l <> v0 | BTop w _ _ => w <> v0 | BDec _ => True end)) L init)
     as ([ds mg] & E & HL & HM & HN).
  - intros L1 i L2 [ds mg] EL (HL & HM & HN).
    assert (nth_error L (length L1) = Some i) as Ei by (rewrite EL, nth_error_app2, Nat.sub_diag; auto).
    assert (i < length h)%nat as Hi by (eapply ser_lt; eauto; rewrite EL; apply in_app_iff; right; left; auto).
    pose proof (HT i Hi) as HR.
    assert (exists d, nth_error ds (length L1) = Some d) as [d Ed].
    { destruct (nth_error ds (length L1)) eqn:G; eauto. apply nth_error_None in G. rewrite HL, EL, app_length in G. simpl in G. lia. }
    unfold marg_step, node_of.
    assert (length L - length L1 = S (length L2))%nat as ES by (rewrite EL, app_length; simpl; lia).
    assert (length L - length (L1 ++ [i]) = length L2)%nat as ES' by (rewrite EL, !app_length; simpl; lia).
    assert (length (L1 ++ [i]) = S (length L1)) as EL1 by (rewrite app_length; simpl; lia).
    assert (forall s, got s mg + (val d * tmarg v0 s (T i) + mass s ds (seq (S (length L1)) (length L2))) = tmarg v0 s (T root)) as HM'.
    { intros s. rewrite <- (HM s), ES. cbn [seq].
      assert (dval ds (length L1) = val d) as Dd by (unfold dval; rewrite Ed; auto).
      unfold mass. rewrite rsum_cons, Ei, Dd. reflexivity. }
    destruct (nth_error h i) as [nd|] eqn:En; [|apply nth_error_None in En; lia].
    cbn [get bind]. rewrite (marg_index_spec _ _ Ei). cbn [get bind]. rewrite Ed. cbn [get bind].
    inversion HR as [j nd' l E1 E2 Q0 Q|j nd' w pt pf E1 E2 Q0 Q|j nd' es tes E1 E2 E3 Q0 Q]; rewrite En in E1; injection E1 as <-; rewrite E2.
    + eexists. split; [reflexivity|]. split; auto. rewrite ES', EL1. split.
      * intros s. rewrite <- (HM' s), <- Q. unfold got, marg_find, lit_var, lit_sign. cbn [tmarg].
        destruct (N.eqb (Z.abs_N l) v0) eqn:Ev.
        -- apply N.eqb_eq in Ev. rewrite Ev, vset_same. destruct (mg v0) as [[mf mt]|]; destruct s, (Z.ltb 0 l); simpl; rewrite ?(val_add HP), ?(val_zero HP); lra.
        -- apply N.eqb_neq in Ev. rewrite vset_other by auto. simpl. destruct (mg v0) as [[mf mt]|]; destruct s; simpl; lra.
      * unfold lit_var. destruct (N.eq_dec (Z.abs_N l) v0) as [Ev|Ev].
        -- rewrite Ev, vset_same. split; [discriminate|]. intros G. specialize (G i nd). rewrite E2 in G. exfalso. exact (G (in_or_app L1 [i] i (or_intror (or_introl eq_refl))) En Ev).
        -- rewrite vset_other by auto. rewrite HN. split; intros G i' nd' Hi' En'.
           ++ apply in_app_iff in Hi' as [Hi'|[<-|[]]]; [apply (G i'); auto|]. rewrite En in En'. injection En' as <-. rewrite E2. auto.
           ++ apply (G i'); auto. apply in_app_iff; auto.
    + eexists. split; [reflexivity|]. split; auto. rewrite ES', EL1. split.
      * intros s. rewrite <- (HM' s), <- Q. unfold got, marg_find. cbn [tmarg].
        destruct (N.eqb w v0) eqn:Ev.
        -- apply N.eqb_eq in Ev. subst w. rewrite vset_same. destruct (mg v0) as [[mf mt]|]; destruct s; simpl; rewrite ?(val_add HP), ?(val_mul HP), ?(val_zero HP); lra.
        -- apply N.eqb_neq in Ev. rewrite vset_other by auto. destruct (mg v0) as [[mf mt]|]; destruct s; simpl; lra.
      * destruct (N.eq_dec w v0) as [Ev|Ev].
        -- subst w. rewrite vset_same. split; [discriminate|]. intros G. specialize (G i nd). rewrite E2 in G. exfalso. apply G; auto. apply in_app_iff. right. left. auto.
        -- rewrite vset_other by auto. rewrite HN. split; intros G i' nd' Hi' En'.
           ++ apply in_app_iff in Hi' as [Hi'|[<-|[]]]; [apply (G i'); auto|]. rewrite En in En'. injection En' as <-. rewrite E2. auto.
           ++ apply (G i'); auto. apply in_app_iff; auto.
    + assert (forall c, In c L2 -> exists p, nth_error L p = Some c /\ In p (seq (S (length L1)) (length L2))) as PO.
      { intros c Hc. apply In_nth_error in Hc as [p Hp]. exists (length L1 + S p)%nat. split.
        - rewrite EL, nth_error_app2 by lia. replace (length L1 + S p - length L1)%nat with (S p) by lia. auto.
        - apply in_seq. assert (p < length L2)%nat by (apply nth_error_Some; congruence). lia. }
      destruct (marg_elems_spec d (seq (S (length L1)) (length L2)) (seq_NoDup _ _) es ds HL) as (ds' & E' & L' & M' & _).
      { intros e He. destruct (ser_elem h root L SO L1 i L2 nd es e EL En E2 He). split; apply PO; auto. }
      rewrite E'. cbn [bind]. eexists. split; [reflexivity|]. split; auto. rewrite ES', EL1. split.
      * intros s. rewrite <- (HM' s), M', <- Q. cbn [tmarg].
        assert (rsum (fun e => (tmarg v0 s (T (e_prime e)) + tmarg v0 s (T (e_sub e))) * val (e_param e)) es = rsum (fun e : telem => (tmarg v0 s (fst (fst e)) + tmarg v0 s (snd (fst e))) * snd e) tes) as ->; [|lra].
        clear - E3 HT. induction E3 as [|e te es tes (A & B & C) F IH]; auto. cbn [rsum fold_right]. unfold rsum in IH. rewrite IH. fold (tp te) (ts te) (tw te).
        rewrite (Rep_fun val h (tp te) _ _ A (HT _ (Rep_lt val _ _ _ A))), (Rep_fun val h (ts te) _ _ B (HT _ (Rep_lt val _ _ _ B))), <- C. reflexivity.
      * rewrite HN. split; intros G i' nd' Hi' En'.
           ++ apply in_app_iff in Hi' as [Hi'|[<-|[]]]; [apply (G i'); auto|]. rewrite En in En'. injection En' as <-. rewrite E2. auto.
           ++ apply (G i'); auto. apply in_app_iff; auto.
  - unfold init. split; [rewrite El0; simpl; rewrite map_length; auto|]. split.
    + intros s. unfold got, mass. rewrite El0. cbn [length Nat.sub seq tl]. cbn [rsum fold_right nth_error]. unfold dval at 1. cbn [nth_error]. rewrite (val_one HP).
      fold (rsum (fun p => dval (pone :: map (fun _ => pzero) l0) p * match nth_error (root :: l0) p with Some i => tmarg v0 s (T i) | None => 0 end) (seq 1 (length l0))).
      rewrite (rsum_ext _ (fun _ => 0)); [rewrite rsum_0; lra|]. intros p Hp. apply in_seq in Hp. destruct p as [|p]; [lia|]. unfold dval. cbn [nth_error].
      rewrite nth_error_map. destruct (nth_error l0 p); simpl; rewrite ?(val_zero HP); lra.
    + split; auto. intros _ i nd [].
  - exists ds, mg. split; auto. split; auto. intros s. rewrite <- (HM s). rewrite Nat.sub_diag. unfold mass. simpl. lra.
Qed.
End Marg.
