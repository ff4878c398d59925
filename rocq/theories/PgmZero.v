(** Networks whose product is zero everywhere (exact parameters). *)
From Coq Require Import Reals Lra Classical.
From Verif Require Import Base Param Vtree VtreeProofs Spec SpecProofs Heap Manager HeapProofs SerProofs RepProofs MulProofs Query TreeProofs
  Pgm PgmLayout PgmProofs PgmNet PgmExamples.
Local Open Scope R_scope.

Section Zero.
Context {P : pops} {val : P -> R} (HP : pexact P val).
Notation mgr := (mgr P).
Notation Inv := (Inv val).
Notation holds := (@holds P val).
Notation pstate := (@pstate P val).

Definition ok_node (m : mgr) (o : option nat) : Prop := match o with Some i => exists t, holds m i t | None => True end.
Lemma ok_mext fl m m' o : mext fl m m' -> ok_node m o -> ok_node m' o.
Proof. intros X. destruct o as [i|]; simpl; auto. intros (t & H). exists t. eapply holds_mext; eauto. Qed.
Lemma holds_pstate m qs : Forall (fun i => exists t, holds m i t) qs -> exists g, pstate m qs pone g.
Proof.
  intros F. assert (exists ts, Forall2 (holds m) qs ts) as (ts & F2).
  { induction F as [|i qs (t & H) F (ts & IH)]; [exists []; constructor|]. exists (t :: ts). constructor; auto. }
  exists (fun x => tprod ts x * val pone). split; [rewrite (val_one HP); lra|]. exists ts. auto.
Qed.
Lemma mult_total m a b : Inv 0%N m -> (exists t, holds m a t) -> (exists t, holds m b t) ->
  exists r m', Multiply m a b 0 = Ok (r, m') /\ Inv 0%N m' /\ mext 0%N m m' /\ ok_node m' (fst r).
Proof.
  intros I Ha Hb. destruct (holds_pstate m [a; b]) as (g & PS); auto.
  destruct (mult_step HP m a b [] pone g I PS) as (r & m' & E & I' & X & M). exists r, m'. split; auto. split; auto. split; auto.
  destruct (fst r) as [c|]; simpl; auto. destruct M as [_ (t & H & _)]. eauto.
Qed.
Lemma mapM_get_cases {A} (l : list (option A)) : (In None l /\ mapM get l = UB) \/ exists l', l = map Some l' /\ mapM get l = Ok l'.
Proof.
  induction l as [|[a|] l IH]; cbn [mapM get bind].
  - right. exists []. auto.
  - destruct IH as [[H E]|(l' & -> & E)]; rewrite E; cbn [bind].
    + left. split; auto. right; auto.
    + right. exists (a :: l'). auto.
  - left. split; auto. left; auto.
Qed.
Lemma forall_ok_some m l : Forall (ok_node m) (map Some l) <-> Forall (fun i => exists t, holds m i t) l.
Proof. rewrite Forall_map. reflexivity. Qed.

(** Once a product was zero: the constant stays zero, and a null node that is not alone is dereferenced. *)
Lemma queue_dead gc : gc <> 0%N -> forall fuel queue proc z m, (length queue <= S fuel)%nat -> queue <> [] -> Inv 0%N m -> Forall (ok_node m) queue ->
  val z = 0 -> queue_loop fuel gc queue proc z m = UB \/
  exists o z' m', queue_loop fuel gc queue proc z m = Ok ([o], z', m') /\ val z' = 0 /\ (In None queue -> queue = [None] /\ o = None).
Proof.
  intros HG. induction fuel as [|f IH]; intros queue proc z m HL NE I OK Z.
  - destruct queue as [|a [|b queue]]; [congruence| |simpl in HL; lia]. cbn [queue_loop]. right. exists a, z, m. split; auto. split; auto.
    intros [->|[]]. auto.
  - destruct queue as [|a [|b queue]]; [congruence| |].
    { cbn [queue_loop]. right. exists a, z, m. split; auto. split; auto. intros [->|[]]. auto. }
    cbn [queue_loop]. inversion OK as [|? ? Oa OK1]; subst. inversion OK1 as [|? ? Ob OK2]; subst.
    destruct a as [a|]; [|left; reflexivity]. destruct b as [b|]; [|left; reflexivity]. cbn [get bind].
    destruct (mult_total m a b I Oa Ob) as (r & m1 & E1 & I1 & X1 & O1). rewrite E1. cbn [bind].
    apply N.eqb_neq in HG as HG'. rewrite HG'. clear HG'. cbn [bind].
    assert (Forall (ok_node m1) (queue ++ [fst r])) as OK3.
    { apply Forall_app. split; [|constructor; auto]. eapply Forall_impl; [|exact OK2]. intros o. apply (ok_mext 0%N _ _ _ X1). }
    assert (val (pmul z (snd r)) = 0) as Z1 by (rewrite (val_mul HP), Z; ring).
    assert (forall m2, Inv 0%N m2 -> Forall (ok_node m2) (queue ++ [fst r]) ->
      queue_loop f gc (queue ++ [fst r]) (proc + 1) (pmul z (snd r)) m2 = UB \/
      exists o z' m', queue_loop f gc (queue ++ [fst r]) (proc + 1) (pmul z (snd r)) m2 = Ok ([o], z', m') /\ val z' = 0 /\
        (In None (Some a :: Some b :: queue) -> Some a :: Some b :: queue = [None] /\ o = None)) as K.
    { intros m2 I2 O2. destruct (IH (queue ++ [fst r]) (proc + 1)%N (pmul z (snd r)) m2) as [E|(o & z' & m' & E & Z' & H)]; auto.
      - rewrite app_length. simpl in *. lia.
      - destruct queue; discriminate.
      - right. exists o, z', m'. split; auto. split; auto. intros [H1|[H1|H1]]; try discriminate. exfalso.
        destruct H as [H _]; [apply in_app_iff; auto|]. destruct queue as [|? [|? ?]]; try discriminate; contradiction. }
    destruct (N.eqb _ 0); [|cbn [bind]; auto].
    destruct (mapM_get_cases (queue ++ [fst r])) as [[_ ->]|(l & El & ->)]; cbn [bind]; auto.
    rewrite El in OK3. apply forall_ok_some in OK3. destruct (holds_pstate m1 l OK3) as (g & PS).
    destruct (gc_step m1 l pone g I1 PS) as (m2 & -> & I2 & _ & PS2 & _). cbn [bind]. apply K; auto.
    rewrite El. apply forall_ok_some. eapply pstate_holds; eauto.
Qed.
Lemma holds_not_zero m i z (g : inst -> R) : Inv 0%N m -> pstate m [i] z g -> ~ forall x, g x = 0.
Proof.
  intros I (Z & ts & F & W) G. inversion F as [|? t ? ts' Ht F']; subst. inversion F'; subst. destruct Ht as (A & B & _).
  destruct (node_at_conforms val m i [] t (proj1 I) A) as (s & Hs & C). destruct (base_sat s) with (t := t) as [x Hx]; auto.
  { simpl in Hs. injection Hs as <-. apply (wf_leaves _ (proj1 I)). }
  apply (weight_pos_base t x B) in Hx. specialize (W x). rewrite G in W. simpl in W. rewrite Rmult_1_r in W. apply Rmult_integral in W. lra.
Qed.
Lemma queue_zero gc g : gc <> 0%N -> (forall x, g x = 0) -> forall fuel queue proc z m, (length queue <= S fuel)%nat -> queue <> [] ->
  Inv 0%N m -> pstate m queue z g -> queue_loop fuel gc (map Some queue) proc z m = UB \/
  exists z' m', queue_loop fuel gc (map Some queue) proc z m = Ok ([None], z', m') /\ val z' = 0 /\
    ((proc + N.of_nat (length queue) - 1) mod gc <> 0)%N.
Proof.
  intros HG G0. induction fuel as [|f IH]; intros queue proc z m HL NE I PS.
  - destruct queue as [|a [|b queue]]; [congruence| |simpl in HL; lia]. exfalso. eapply holds_not_zero; eauto.
  - destruct queue as [|a [|b queue]]; [congruence| |].
    { exfalso. eapply holds_not_zero; eauto. }
    cbn [queue_loop map get bind].
    destruct (mult_step HP m a b queue z g I PS) as (r & m1 & E1 & I1 & X1 & M). rewrite E1. cbn [bind].
    apply N.eqb_neq in HG as HG'. rewrite HG'. clear HG'. cbn [bind].
    assert (proc + 1 + N.of_nat (length queue + 1) - 1 = proc + N.of_nat (length (a :: b :: queue)) - 1)%N as EP by (simpl; lia).
    destruct (fst r) as [c|] eqn:Er.
    + destruct M as [PS1 _]. apply (pstate_perm _ _ (queue ++ [c])) in PS1; [|apply Permutation_cons_append].
      assert (map Some queue ++ [Some c] = map Some (queue ++ [c])) as EM by (rewrite map_app; auto). rewrite EM.
      assert (forall m2, Inv 0%N m2 -> pstate m2 (queue ++ [c]) (pmul z (snd r)) g ->
        queue_loop f gc (map Some (queue ++ [c])) (proc + 1) (pmul z (snd r)) m2 = UB \/
        exists z' m', queue_loop f gc (map Some (queue ++ [c])) (proc + 1) (pmul z (snd r)) m2 = Ok ([None], z', m') /\ val z' = 0 /\
          ((proc + N.of_nat (length (a :: b :: queue)) - 1) mod gc <> 0)%N) as K.
      { intros m2 I2 PS2. destruct (IH (queue ++ [c]) (proc + 1)%N (pmul z (snd r)) m2) as [E|(z' & m' & E & Z' & H)]; auto.
        - rewrite app_length. simpl in *. lia.
        - destruct queue; discriminate.
        - right. exists z', m'. split; auto. split; auto. rewrite app_length in H. cbn [length] in H. rewrite EP in H. exact H. }
      destruct (N.eqb _ 0); [|cbn [bind]; auto]. rewrite mapM_get_some. cbn [bind].
      destruct (gc_step m1 (queue ++ [c]) _ g I1 PS1) as (m2 & -> & I2 & _ & PS2 & _). cbn [bind]. auto.
    + destruct M as [Z1 _]. destruct (N.eqb_spec ((proc + 1) mod gc) 0) as [Ep|Ep].
      { destruct (mapM_get_cases (map Some queue ++ [None])) as [[_ ->]|(l & El & _)]; cbn [bind]; auto. exfalso.
        assert (In None (map (@Some nat) l)) as H by (rewrite <- El; apply in_app_iff; right; left; auto). apply in_map_iff in H as (? & ? & _). discriminate. }
      cbn [bind]. destruct (queue_dead gc HG f (map Some queue ++ [None]) (proc + 1)%N (pmul z (snd r)) m1) as [E|(o & z' & m' & E & Z' & H)]; auto.
      * rewrite app_length, map_length. simpl in *. lia.
      * destruct queue; discriminate.
      * apply Forall_app. split; [|constructor; simpl; auto]. apply forall_ok_some.
        apply (some_holds_ext 0%N m m1); auto. apply pstate_holds in PS. inversion PS as [|? ? _ PS']; subst. inversion PS'; auto.
      * destruct H as [H ->]; [apply in_app_iff; right; left; auto|]. destruct queue as [|q [|? ?]]; try discriminate.
        right. exists z', m'. split; auto. split; auto. simpl length. replace (proc + N.of_nat 2 - 1)%N with (proc + 1)%N by lia. auto.
Qed.

Theorem network_dc_zero ords srt gc fs m : (forall a b c, Permutation (ords a b c) c) -> sorts srt -> Inv 0%N m ->
  (forall v, In v (leaves (m_vt m)) -> v <> 0%N) -> Forall (good_factor (m_vt m)) fs -> fs <> [] -> gc <> 0%N ->
  (forall x, network_value val fs x = 0) ->
  compile_network_dc ords srt gc fs m = UB \/
  exists z m', compile_network_dc ords srt gc fs m = Ok (None, z, m') /\ val z = 0 /\ (N.of_nat (length fs - 1) mod gc <> 0)%N.
Proof.
  intros HO HS I NZ G NE HG H0. destruct (classic (exists F, In F fs /\ forall x, factor_value val F x = 0)) as [HZ|HZ].
  { left. eapply (networks_zero HP); eauto. }
  assert (Forall (nonzero (val := val)) fs) as N.
  { apply Forall_forall. intros F HF. apply NNPP. intros HN. apply HZ. exists F. split; auto. intros x. apply NNPP. intros Hx. apply HN. exists x. auto. }
  unfold compile_network_dc.
  destruct (load_factors_spec HP ords HO fs 0%nat pone m I NZ G N) as (nodes & z1 & m1 & E1 & I1 & X1 & EL & PS & _).
  { rewrite (val_one HP). lra. }
  rewrite E1. cbn [bind fst snd].
  destruct (compilation_order_spec srt m1 fs nodes) as (order & Eo & PO).
  { intros. apply HS. }
  { rewrite (me_vt _ _ _ X1). exact G. }
  rewrite Eo. cbn [bind].
  apply (pstate_ext _ _ _ _ (network_value val fs)) in PS; [|intros x; rewrite (val_one HP); ring].
  apply (pstate_perm _ _ _ _ _ (Permutation_sym PO)) in PS.
  assert (length order = length fs) as ELo by (rewrite (Permutation_length PO); auto).
  assert (order <> []) as NEo by (intros ->; destruct fs; simpl in ELo; congruence).
  destruct (queue_zero gc _ HG H0 (length order) order 0%N z1 m1) as [E|(z & m2 & E & Z & H)]; auto; rewrite E; cbn [bind fst snd hd_error get]; auto.
  right. exists z, m2. split; auto. split; auto. rewrite ELo in H. replace (N.of_nat (length fs - 1)) with (0 + N.of_nat (length fs) - 1)%N by lia. auto.
Qed.

(** ** compile_network_with_vtree *)
Lemma bucket_dead : forall nodes total proc z m, Inv 0%N m -> Forall (fun i => exists t, holds m i t) nodes -> ok_node m total -> val z = 0 ->
  exists total' proc' z' m', bucket_loop nodes total proc z m = Ok (total', proc', z', m') /\ Inv 0%N m' /\ mext 0%N m m' /\ ok_node m' total' /\ val z' = 0.
Proof.
  induction nodes as [|b nodes IH]; intros total proc z m I F O Z; cbn [bucket_loop].
  - exists total, proc, z, m. split; auto. split; auto. split; auto. apply mext_refl.
  - inversion F as [|? ? Hb F']; subst. destruct total as [a|].
    + destruct (mult_total m a b I O Hb) as (r & m1 & -> & I1 & X1 & O1). cbn [bind].
      destruct (IH (fst r) (proc + 1)%N (pmul z (snd r)) m1) as (t' & p' & z' & m' & E & I' & X' & O' & Z'); auto.
      { eapply some_holds_ext; eauto. }
      { rewrite (val_mul HP), Z. ring. }
      exists t', p', z', m'. split; auto. split; auto. split; auto. eapply mext_trans; eauto.
    + apply IH; auto.
Qed.
Lemma bucket_live g : forall nodes a rest proc z m, Inv 0%N m -> pstate m (a :: nodes ++ rest) z g ->
  exists total proc' z' m', bucket_loop nodes (Some a) proc z m = Ok (total, proc', z', m') /\ Inv 0%N m' /\ mext 0%N m m' /\
    ((exists c, total = Some c /\ pstate m' (c :: rest) z' g) \/ (val z' = 0 /\ ok_node m' total)).
Proof.
  induction nodes as [|b nodes IH]; intros a rest proc z m I PS; cbn [bucket_loop].
  - exists (Some a), proc, z, m. split; auto. split; auto. split; [apply mext_refl|]. left. eauto.
  - destruct (mult_step HP m a b (nodes ++ rest) z g I PS) as (r & m1 & E1 & I1 & X1 & M). rewrite E1. cbn [bind].
    destruct (fst r) as [c|] eqn:Er.
    + destruct M as [PS1 _]. destruct (IH c rest (proc + 1)%N (pmul z (snd r)) m1 I1 PS1) as (t' & p' & z' & m' & E & I' & X' & D).
      exists t', p', z', m'. split; auto. split; auto. split; auto. eapply mext_trans; eauto.
    + destruct M as [Z1 _]. destruct (bucket_dead nodes None (proc + 1)%N (pmul z (snd r)) m1) as (t' & p' & z' & m' & E & I' & X' & O' & Z'); simpl; auto.
      { apply pstate_holds in PS. apply (some_holds_ext 0%N m m1); auto. inversion PS as [|? ? _ PS']; subst. inversion PS' as [|? ? _ PS'']; subst.
        apply Forall_app in PS''. apply PS''. }
      exists t', p', z', m'. split; auto. split; auto. split; [eapply mext_trans; eauto|]. auto.
Qed.
Definition bstate (m : mgr) (qs : list nat) (z : P) (g : inst -> R) : Prop :=
  pstate m qs z g \/ (val z = 0 /\ Forall (fun i => exists t, holds m i t) qs).
Lemma buckets_any root at_pos g : forall vs out proc z m, Inv 0%N m -> bstate m (out ++ items root at_pos vs) z g ->
  foldM (bucket_step root at_pos) vs (map Some out, proc, z, m) = Abort \/
  exists out' proc' z' m', foldM (bucket_step root at_pos) vs (map Some out, proc, z, m) = Ok (map Some out', proc', z', m') /\
    Inv 0%N m' /\ bstate m' out' z' g.
Proof.
  induction vs as [|v vs IH]; intros out proc z m I BS; cbn [foldM].
  - right. exists out, proc, z, m. simpl in BS. rewrite app_nil_r in BS. auto.
  - unfold bucket_step at 1 3. unfold items in BS. cbn [flat_map] in BS. fold (items root at_pos vs) in BS.
    destruct (map snd (filter _ at_pos)) as [|a nodes].
    + cbn [bind]. apply IH; auto.
    + cbn [bucket_loop].
      assert (exists total p1 z1 m1, bucket_loop nodes (Some a) proc z m = Ok (total, p1, z1, m1) /\ Inv 0%N m1 /\
        (total = None \/ exists c, total = Some c /\ bstate m1 ((out ++ [c]) ++ items root at_pos vs) z1 g)) as (total & p1 & z1 & m1 & E1 & I1 & D).
      { assert (forall qs, Permutation (out ++ (a :: nodes) ++ qs) (a :: nodes ++ (out ++ qs))) as PM.
        { intros qs. rewrite app_assoc. change (a :: nodes ++ out ++ qs) with ((a :: nodes) ++ (out ++ qs)).
          rewrite (app_assoc (a :: nodes)). apply Permutation_app_tail, Permutation_app_comm. }
        assert (forall c, Permutation (c :: out ++ items root at_pos vs) ((out ++ [c]) ++ items root at_pos vs)) as PC.
        { intros c. rewrite <- app_assoc. apply Permutation_middle. }
        destruct BS as [BS|[Z BS]].
        - pose proof (pstate_holds _ _ _ _ BS) as FH. apply (pstate_perm _ _ _ _ _ (PM _)) in BS.
          destruct (bucket_live g nodes a _ proc z m I BS) as (t' & p' & z' & m' & E & I' & X' & D).
          exists t', p', z', m'. split; auto. split; auto. destruct D as [(c & -> & PS)|[Z O]].
          + right. exists c. split; auto. left. eapply pstate_perm; [apply PC|exact PS].
          + destruct t' as [c|]; auto. right. exists c. split; auto. right. split; auto.
            apply (Permutation_Forall (PC c)). constructor; auto. apply (some_holds_ext 0%N m m'); auto.
            apply Forall_app in FH as [F1 F2]. apply Forall_app in F2 as [_ F2]. apply Forall_app. auto.
        - apply Forall_app in BS as [F1 F2]. apply Forall_app in F2 as [F2 F3]. inversion F2 as [|? ? Ha Fn]; subst.
          destruct (bucket_dead nodes (Some a) proc z m I Fn Ha Z) as (t' & p' & z' & m' & E & I' & X' & O & Z').
          exists t', p', z', m'. split; auto. split; auto. destruct t' as [c|]; auto. right. exists c. split; auto. right. split; auto.
          apply (Permutation_Forall (PC c)). constructor; auto. apply (some_holds_ext 0%N m m'); auto. apply Forall_app; auto. }
      rewrite E1. cbn [bind]. destruct D as [->|(c & -> & BS1)]; [left; reflexivity|]. cbn [bind].
      replace (map Some out ++ [Some c]) with (map Some (out ++ [c])) by (rewrite map_app; reflexivity). apply IH; auto.
Qed.
Theorem network_with_vtree_zero ords gc fs m : (forall a b c, Permutation (ords a b c) c) -> Inv 0%N m ->
  (forall v, In v (leaves (m_vt m)) -> v <> 0%N) -> Forall (good_factor (m_vt m)) fs -> gc <> 0%N ->
  (forall x, network_value val fs x = 0) ->
  compile_network_with_vtree ords gc fs m = UB \/ compile_network_with_vtree ords gc fs m = Abort \/
  exists r z m', compile_network_with_vtree ords gc fs m = Ok (r, z, m') /\ val z = 0.
Proof.
  intros HO I NZ G HG H0. destruct (classic (exists F, In F fs /\ forall x, factor_value val F x = 0)) as [HZ|HZ].
  { left. exact (proj2 (proj2 (networks_zero HP ords (fun _ l => l) gc fs m HO I NZ G HZ))). }
  assert (Forall (nonzero (val := val)) fs) as N.
  { apply Forall_forall. intros F HF. apply NNPP. intros HN. apply HZ. exists F. split; auto. intros x. apply NNPP. intros Hx. apply HN. exists x. auto. }
  unfold compile_network_with_vtree.
  destruct (serialize_vtree_spec [] (m_vt m)) as (ser & Es & PSer & _). rewrite Es. cbn [bind].
  destruct (load_factors_spec HP ords HO fs 0%nat pone m I NZ G N) as (nodes & z1 & m1 & E1 & I1 & X1 & EL & PS & _).
  { rewrite (val_one HP). lra. }
  rewrite E1. cbn [bind fst snd].
  assert (exists ps, mapM (attach (m_vt m)) fs = Ok ps /\ length ps = length fs /\
    Forall (fun k => exists p s, subtree (m_vt m) p = Some s /\ k = vpos (m_vt m) p) ps) as (ps & Ep & ELp & FP).
  { clear - G. induction G as [|F fs G1 G2 IH]; [exists []; simpl; auto|]. cbn [mapM].
    destruct IH as (ps & E & EL & FP). destruct (attach_spec _ F G1) as (p & s & Hp & ->). cbn [bind]. rewrite E. cbn [bind]. exists (vpos (m_vt m) p :: ps). split; auto. split; [simpl; auto|].
    constructor; eauto. }
  rewrite Ep. cbn [bind].
  apply (pstate_ext _ _ _ _ (network_value val fs)) in PS; [|intros x; rewrite (val_one HP); ring].
  assert (Permutation (items (m_vt m) (combine ps nodes) (rev ser)) nodes) as PI.
  { rewrite items_perm; auto.
    - replace (map snd (combine ps nodes)) with nodes; auto. assert (length ps = length nodes) as Q by congruence. clear - Q. revert nodes Q.
      induction ps as [|p ps IH]; intros [|n nodes]; simpl; intros; try discriminate; auto. f_equal. apply IH. congruence.
    - intros [k n] Hk. apply in_combine_l in Hk. rewrite Forall_forall in FP. simpl. apply FP, Hk. }
  destruct (buckets_any (m_vt m) (combine ps nodes) (network_value val fs) (rev ser) [] 0%N z1 m1 I1) as [E2|(out & proc & z2 & m2 & E2 & I2 & BS)].
  { left. eapply pstate_perm; [apply Permutation_sym, PI|]. auto. }
  - cbn [map] in E2. rewrite E2. auto.
  - cbn [map] in E2. rewrite E2. cbn [bind]. destruct out as [|o out]; [left; reflexivity|]. rewrite map_length. destruct BS as [BS|[Z BS]].
    + destruct (queue_zero gc _ HG H0 (length (o :: out)) (o :: out) proc z2 m2) as [E|(z & m3 & E & Z & _)]; auto; [discriminate| |].
      * rewrite E. auto.
      * rewrite E. cbn [bind fst snd hd_error get]. right. right. eauto.
    + destruct (queue_dead gc HG (length (o :: out)) (map Some (o :: out)) proc z2 m2) as [E|(r & z & m3 & E & Z' & _)]; auto.
      * rewrite map_length. auto.
      * discriminate.
      * apply forall_ok_some. auto.
      * rewrite E. auto.
      * rewrite E. cbn [bind fst snd hd_error get]. right. right. eauto.
Qed.
End Zero.
