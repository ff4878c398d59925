(** Manager operations as programs over interning; repeating a request: as long as nothing was collected, the same request on a manager that has grown returns the same
    node and creates nothing (C24, C51). *)
From Coq Require Import Sorted.
From Verif Require Import Base Param Vtree VtreeProofs Heap Manager HeapProofs SerProofs OrderProofs CanonProofs.

Section Prog.
Context {P : pops}.
Notation heap := (heap P). Notation mgr := (mgr P). Notation node := (node P).

(** The manager has only grown: nothing was removed or changed. *)
Definition grow (m m' : mgr) : Prop :=
  m_vt m' = m_vt m /\ (exists l, m_heap m' = m_heap m ++ l) /\ incl (m_live m) (m_live m').
Lemma grow_refl m : grow m m.
Proof. split; auto. split; [exists []; rewrite app_nil_r; auto|apply incl_refl]. Qed.
Lemma grow_trans a b c : grow a b -> grow b c -> grow a c.
Proof.
  intros (V1 & (l1 & H1) & L1) (V2 & (l2 & H2) & L2). split; [congruence|]. split.
  - exists (l1 ++ l2). rewrite H2, H1, app_assoc. auto.
  - eapply incl_tran; eauto.
Qed.
Lemma mext_grow fl m m' : mext fl m m' -> grow m m'.
Proof. intros [A (l & B & _) C _]. split; auto. split; eauto. Qed.
Lemma grow_nth m m' i nd : grow m m' -> nth_error (m_heap m) i = Some nd -> nth_error (m_heap m') i = Some nd.
Proof. intros (_ & (l & ->) & _) H. rewrite nth_error_app1; auto. apply nth_error_Some. congruence. Qed.

(** Reading the manager *)
Definition stable {Y} (r : mgr -> res Y) : Prop := forall m m' y, grow m m' -> r m = Ok y -> r m' = Ok y.
Lemma stable_vt {Y} (f : vtree -> res Y) : stable (fun m => f (m_vt m)).
Proof. intros m m' y (V & _) H. rewrite V. auto. Qed.
Lemma stable_nth i : stable (fun m => get (nth_error (m_heap m) i)).
Proof.
  intros m m' y G H. destruct (nth_error (m_heap m) i) eqn:E; [|discriminate]. rewrite (grow_nth _ _ _ _ G E). auto.
Qed.
Lemma stable_vt_of i : stable (fun m => get (vt_of (m_heap m) i)).
Proof.
  intros m m' y G H. unfold vt_of in *. destruct (nth_error (m_heap m) i) eqn:E; [|discriminate]. rewrite (grow_nth _ _ _ _ G E). auto.
Qed.

(** ** Operations that change the manager only by interning nodes with acceptable parameters *)
Context (okt : N -> P -> P -> Prop) (okp : P -> Prop).
Definition okn (nd : node) : Prop :=
  match n_body nd with
  | BLit _ => True
  | BTop _ pt pf => okt (n_flag nd) pt pf
  | BDec es => Forall (fun e => okp (e_param e)) es /\ StronglySorted ple es
  end.
Inductive prog : forall {X}, (mgr -> res (X * mgr)) -> Prop :=
| prog_ret X (x : X) : prog (fun m => Ok (x, m))
| prog_fail X (f : mgr -> res (X * mgr)) : (forall m y, f m <> Ok y) -> prog f
| prog_bind X Y (f : mgr -> res (X * mgr)) (k : X -> mgr -> res (Y * mgr)) : prog f -> (forall x, prog (k x)) ->
    prog (fun m => do (x, m') <- f m ;; k x m')
| prog_read X Y (r : mgr -> res Y) (k : Y -> mgr -> res (X * mgr)) : stable r -> (forall y, prog (k y)) ->
    prog (fun m => do y <- r m ;; k y m)
| prog_vt X (f : vtree -> mgr -> res (X * mgr)) : (forall t, prog (f t)) -> prog (fun m => f (m_vt m) m)
| prog_unique nd : okn nd -> prog (fun m => Ok (GetUniqueNode m nd))
| prog_ext X (f g : mgr -> res (X * mgr)) : (forall m, f m = g m) -> prog f -> prog g.
Arguments prog_ret {X}. Arguments prog_fail {X}. Arguments prog_bind {X Y}. Arguments prog_read {X Y}. Arguments prog_vt {X}. Arguments prog_ext {X}.
Context (okt1 : forall fl, okt fl pone pone) (okp0 : okp pzero) (okp1 : okp pone).
Lemma prog_literal l fl : prog (fun m => GetPsddLiteralNode m l fl).
Proof.
  unfold GetPsddLiteralNode. apply (prog_vt (fun t m => match leaf_path t (Z.abs_N l) with None => Abort | Some p => Ok (GetUniqueNode m (MkN p fl (BLit l))) end)).
  intros t. destruct (leaf_path t (Z.abs_N l)); [|apply prog_fail; intros; discriminate]. apply prog_unique. exact Logic.I.
Qed.
Lemma prog_top v fl pt pf : okt fl pt pf -> prog (fun m => GetPsddTopNode m v fl pt pf).
Proof.
  intros G. unfold GetPsddTopNode. apply (prog_vt (fun t m => match leaf_path t v with None => Abort | Some p => Ok (GetUniqueNode m (MkN p fl (BTop v pt pf))) end)).
  intros t. destruct (leaf_path t v); [|apply prog_fail; intros; discriminate]. apply prog_unique. exact G.
Qed.
Lemma mk_elems_params params : forall primes subs k es, mk_elems params k primes subs = Ok es -> Forall okp params ->
  Forall (fun e => okp (e_param e)) es.
Proof.
  intros primes. induction primes as [|p primes IH]; intros [|s subs] k es E F; simpl in E; try discriminate.
  - injection E as <-. constructor.
  - destruct (param_at params k) as [w| | |] eqn:Ew; try discriminate. cbn [bind] in E.
    destruct (mk_elems params (S k) primes subs) as [es'| | |] eqn:Ee; try discriminate. injection E as <-.
    constructor; [|eapply IH; eauto]. simpl. unfold param_at in Ew. destruct params as [|w0 ps]; [injection Ew as <-; auto|].
    destruct (nth_error (w0 :: ps) k) as [w'|] eqn:En; [|discriminate]. injection Ew as <-. rewrite Forall_forall in F. eapply F, nth_error_In; eauto.
Qed.
Lemma prog_new_dec p fl primes subs params : Forall okp params -> prog (fun m => new_dec m p fl primes subs params).
Proof.
  intros G. unfold new_dec. destruct (mk_elems params 0 primes subs) as [es| | |] eqn:E; [|apply prog_fail; intros; discriminate..].
  cbn [bind]. apply prog_unique. simpl. split; [|apply sort_sorted]. eapply Permutation_Forall; [apply Permutation_sym, sort_elems_perm|]. eapply mk_elems_params; eauto.
Qed.
Definition gt_prog (gt : @gt_type P) : Prop := forall p fl tm, prog (gt p fl tm).
Lemma prog_norm_loop gt : gt_prog gt -> forall fuel target fl cur tm, prog (norm_loop gt fuel target fl cur tm).
Proof.
  intros Rg fuel. induction fuel as [|f IH]; intros target fl cur tm; [apply prog_fail; intros; discriminate|].
  apply (prog_read (fun m => get (nth_error (m_heap m) cur)) (fun nd m => 
      if opath_eqb (n_vt nd) target then Ok (cur, tm, m)
      else match n_vt nd with
           | [] => Abort
           | false :: parent =>
               do (x, m2) <- gt (true :: parent) fl tm m ;;
               let '(t, tm2) := x in
               do (next, m3) <- new_dec m2 parent fl [cur] [t] [pone] ;;
               norm_loop gt f target fl next tm2 m3
           | true :: parent =>
               do (x, m2) <- gt (false :: parent) fl tm m ;;
               let '(t, tm2) := x in
               do (next, m3) <- new_dec m2 parent fl [t] [cur] [pone] ;;
               norm_loop gt f target fl next tm2 m3
           end)); [apply stable_nth|].
  intros nd. destruct (opath_eqb (n_vt nd) target); [apply prog_ret|].
  destruct (n_vt nd) as [|[|] parent]; [apply prog_fail; intros; discriminate| |].
  - apply (prog_bind (gt (false :: parent) fl tm) (fun x m2 => let '(t, tm2) := x in
               do (next, m3) <- new_dec m2 parent fl [t] [cur] [pone] ;; norm_loop gt f target fl next tm2 m3)); [apply Rg|].
    intros [t tm2]. apply (prog_bind (fun m2 => new_dec m2 parent fl [t] [cur] [pone])); [apply prog_new_dec; auto|]. auto.
  - apply (prog_bind (gt (true :: parent) fl tm) (fun x m2 => let '(t, tm2) := x in
               do (next, m3) <- new_dec m2 parent fl [cur] [t] [pone] ;; norm_loop gt f target fl next tm2 m3)); [apply Rg|].
    intros [t tm2]. apply (prog_bind (fun m2 => new_dec m2 parent fl [cur] [t] [pone])); [apply prog_new_dec; auto|]. auto.
Qed.
Lemma prog_normalize_with gt target fl cur tm : gt_prog gt -> prog (normalize_with gt target fl cur tm).
Proof.
  intros Rg. apply (prog_read (fun m => get (vt_of (m_heap m) cur)) (fun vt m => norm_loop gt (S (length vt)) target fl cur tm m)).
  - apply stable_vt_of.
  - intros vt. apply prog_norm_loop; auto.
Qed.
Lemma prog_conform_loop gt left right fl : gt_prog gt -> forall primes subs tm, prog (conform_loop gt left right fl primes subs tm).
Proof.
  intros Rg primes. induction primes as [|p primes IH]; intros subs tm; [apply prog_ret|].
  destruct subs as [|s subs]; [apply prog_fail; intros; discriminate|].
  apply (prog_bind (normalize_with gt left fl p tm) (fun x m1 => let '(p', tm1) := x in
          do (y, m2) <- normalize_with gt right fl s tm1 m1 ;;
          let '(s', tm2) := y in
          do (z, m3) <- conform_loop gt left right fl primes subs tm2 m2 ;;
          let '(ps, ss) := z in
          Ok (p' :: ps, s' :: ss, m3))); [apply prog_normalize_with; auto|]. intros [p' tm1].
  apply (prog_bind (normalize_with gt right fl s tm1) (fun y m2 => 
          let '(s', tm2) := y in
          do (z, m3) <- conform_loop gt left right fl primes subs tm2 m2 ;;
          let '(ps, ss) := z in
          Ok (p' :: ps, s' :: ss, m3))); [apply prog_normalize_with; auto|]. intros [s' tm2].
  apply (prog_bind (conform_loop gt left right fl primes subs tm2) (fun z m3 => let '(ps, ss) := z in Ok (p' :: ps, s' :: ss, m3))); [apply IH|].
  intros [ps ss]. apply prog_ret.
Qed.
Lemma prog_conformed_with gt primes subs params fl : gt_prog gt -> Forall okp params ->
  prog (fun m => conformed_with gt m primes subs params fl).
Proof.
  intros Rg G. unfold conformed_with. destruct (hd_error primes) as [p0|]; [|apply prog_fail; intros; discriminate].
  destruct (hd_error subs) as [s0|]; [|apply prog_fail; intros; discriminate]. cbn [get bind].
  apply (prog_read (fun m => get (vt_of (m_heap m) p0)) (fun vp m => do vs <- get (vt_of (m_heap m) s0) ;;
    do (x, m1) <- conform_loop gt (vkid (m_vt m) (vlca vp vs) false) (vkid (m_vt m) (vlca vp vs) true) fl primes subs [] m ;;
    let '(ps, ss) := x in new_dec m1 (vlca vp vs) fl ps ss params)); [apply stable_vt_of|]. intros vp.
  apply (prog_read (fun m => get (vt_of (m_heap m) s0)) (fun vs m => 
    do (x, m1) <- conform_loop gt (vkid (m_vt m) (vlca vp vs) false) (vkid (m_vt m) (vlca vp vs) true) fl primes subs [] m ;;
    let '(ps, ss) := x in new_dec m1 (vlca vp vs) fl ps ss params)); [apply stable_vt_of|]. intros vs.
  apply (prog_vt (fun t m => 
    do (x, m1) <- conform_loop gt (vkid t (vlca vp vs) false) (vkid t (vlca vp vs) true) fl primes subs [] m ;;
    let '(ps, ss) := x in new_dec m1 (vlca vp vs) fl ps ss params)). intros t.
  apply (prog_bind (conform_loop gt (vkid t (vlca vp vs) false) (vkid t (vlca vp vs) true) fl primes subs [])
    (fun x m1 => let '(ps, ss) := x in new_dec m1 (vlca vp vs) fl ps ss params)); [apply prog_conform_loop; auto|].
  intros [ps ss]. apply prog_new_dec; auto.
Qed.
Lemma prog_foldM {S A} (step : S * mgr -> A -> res (S * mgr)) : (forall s a, prog (fun m => step (s, m) a)) ->
  forall l s, prog (fun m => foldM step l (s, m)).
Proof.
  intros R l. induction l as [|a l IH]; intros s; [apply prog_ret|]. cbn [foldM].
  eapply prog_ext; [|apply (prog_bind (fun m => step (s, m) a) (fun s' m' => foldM step l (s', m')))]; auto.
  intros m. simpl. destruct (step (s, m) a) as [[s' m']| | |]; reflexivity.
Qed.
Lemma prog_true_step gt fl tm x : gt_prog gt -> prog (fun m => true_step gt fl (tm, m) x).
Proof.
  intros Rg. destruct x as [p t]. unfold true_step. destruct t as [v|a b].
  - apply (prog_vt (fun t m => do (i, m1) <- GetPsddTopNode m v fl pone pone ;; Ok (tinsert tm (vpos t p) i, m1))). intros t.
    apply (prog_bind (fun m => GetPsddTopNode m v fl pone pone) (fun i m1 => Ok (tinsert tm (vpos t p) i, m1))); [apply prog_top; auto|].
    intros i. apply prog_ret.
  - apply (prog_vt (fun t m => match nlookup (vpos t (false :: p)) tm, nlookup (vpos t (true :: p)) tm with
      | Some l, Some r =>
          do (i, m1) <- conformed_with gt m [l] [r] [pone] fl ;;
          Ok (tinsert tm (vpos t p) i, m1)
      | _, _ => Abort end)). intros t. destruct (nlookup (vpos t (false :: p)) tm) as [l|]; [|apply prog_fail; intros; discriminate].
    destruct (nlookup (vpos t (true :: p)) tm) as [r|]; [|apply prog_fail; intros; discriminate].
    apply (prog_bind (fun m => conformed_with gt m [l] [r] [pone] fl) (fun i m1 => Ok (tinsert tm (vpos t p) i, m1))).
    + apply prog_conformed_with; auto.
    + intros i. apply prog_ret.
Qed.
Lemma prog_get_true fuel : gt_prog (get_true fuel).
Proof.
  induction fuel as [|f IH]; intros p fl tm; [apply prog_fail; intros; discriminate|]. cbn [get_true].
  apply (prog_vt (fun t0 m => match nlookup (vpos t0 p) tm with
      | Some i => Ok (i, tm, m)
      | None =>
          do t <- get (subtree t0 p) ;;
          do ser <- SerializeVtree p t ;;
          do (tm1, m1) <- foldM (true_step (get_true f) fl) (rev ser) (tm, m) ;;
          match nlookup (vpos t0 p) tm1 with
          | Some i => Ok (i, tm1, m1)
          | None => Abort
          end
      end)). intros t0. destruct (nlookup (vpos t0 p) tm); [apply prog_ret|].
  destruct (subtree t0 p) as [t|]; [|apply prog_fail; intros; discriminate]. cbn [get bind].
  destruct (SerializeVtree p t) as [ser| | |]; [|apply prog_fail; intros; discriminate..]. cbn [bind].
  apply (prog_bind (fun m => foldM (true_step (get_true f) fl) (rev ser) (tm, m)) (fun tm1 m1 => match nlookup (vpos t0 p) tm1 with
          | Some i => Ok (i, tm1, m1)
          | None => Abort
          end)).
  - apply prog_foldM. intros. apply prog_true_step. auto.
  - intros tm1. destruct (nlookup (vpos t0 p) tm1); [apply prog_ret|apply prog_fail; intros; discriminate].
Qed.
Lemma prog_fst {A B} (f : mgr -> res (A * B * mgr)) : prog f -> prog (fun m => do (x, m1) <- f m ;; Ok (fst x, m1)).
Proof. intros R. apply (prog_bind f (fun x m1 => Ok (fst x, m1))); auto. intros. apply prog_ret. Qed.
Theorem prog_GetTrueNode p fl : prog (GetTrueNode p fl).
Proof. apply prog_fst, prog_get_true. Qed.
Theorem prog_Normalize target cur fl : prog (NormalizePsddNode target cur fl).
Proof. apply prog_fst, prog_normalize_with, prog_get_true. Qed.
Theorem prog_Conformed primes subs params fl : Forall okp params -> prog (fun m => GetConformedPsddDecisionNode m primes subs params fl).
Proof. apply prog_conformed_with, prog_get_true. Qed.

(** ** LoadPsddNode *)
Definition params_good (fl : N) (hs : heap) : Prop := forall i nd, nth_error hs i = Some nd -> match n_body nd with
  | BLit _ => True | BTop _ pt pf => okt fl pt pf | BDec es => Forall (fun e => okp (e_param e)) es end.
Lemma prog_load_step (hs : heap) fl ud i : params_good fl hs -> prog (fun m => load_step hs fl (ud, m) i).
Proof.
  intros G. unfold load_step. destruct (nth_error hs i) as [nd|] eqn:E; [|apply prog_fail; intros; discriminate]. cbn [get bind].
  specialize (G _ _ E). destruct (n_body nd) as [l|v pt pf|es].
  - apply (prog_bind (fun m => GetPsddLiteralNode m l fl) (fun j m1 => Ok (set_ud ud i (Some j), m1))); [apply prog_literal|].
    intros j. apply prog_ret.
  - apply (prog_bind (fun m => GetPsddTopNode m v fl pt pf) (fun j m1 => Ok (set_ud ud i (Some j), m1))); [apply prog_top; auto|].
    intros j. apply prog_ret.
  - destruct (mapM (fun e => get (ud (e_prime e))) es) as [ps| | |]; [|apply prog_fail; intros; discriminate..]. cbn [bind].
    destruct (mapM (fun e => get (ud (e_sub e))) es) as [ss| | |]; [|apply prog_fail; intros; discriminate..]. cbn [bind].
    apply (prog_bind (fun m => GetConformedPsddDecisionNode m ps ss (map e_param es) fl) (fun j m1 => Ok (set_ud ud i (Some j), m1))).
    + apply prog_Conformed. apply Forall_map. exact G.
    + intros j. apply prog_ret.
Qed.
Theorem prog_Load (hs : heap) ud target root fl : params_good fl hs -> prog (LoadPsddNode hs ud target root fl).
Proof.
  intros G. unfold LoadPsddNode. destruct (SerializePsddNodes hs [root]) as [ser| | |]; [|apply prog_fail; intros; discriminate..]. cbn [bind].
  apply (prog_bind (fun m => foldM (load_step hs fl) (rev ser) (ud, m)) (fun ud1 m1 =>
    do r <- get (ud1 root) ;; do (j, m2) <- NormalizePsddNode target r fl m1 ;; Ok (j, clear_ud ser ud1, m2))).
  - apply prog_foldM. intros. apply prog_load_step; auto.
  - intros ud1. destruct (ud1 root) as [r|]; [|apply prog_fail; intros; discriminate]. cbn [get bind].
    apply (prog_bind (NormalizePsddNode target r fl) (fun j m2 => Ok (j, clear_ud ser ud1, m2))); [apply prog_Normalize|].
    intros. apply prog_ret.
Qed.

End Prog.

Section Replay.
Context {P : pops} (pg : P -> Prop) (HO : pord P pg) (Hr : forall a : P, peq a a = true) (Hi : forall a : P, plt a a = false).
Notation heap := (heap P). Notation mgr := (mgr P). Notation node := (node P).
Definition replays {X} (f : mgr -> res (X * mgr)) : Prop :=
  forall m x m1, f m = Ok (x, m1) -> grow m m1 /\ (forall m2, Wf m2 -> live_good pg m2 -> grow m1 m2 -> f m2 = Ok (x, m2)).
Lemma replays_ext {X} (f g : mgr -> res (X * mgr)) : (forall m, f m = g m) -> replays f -> replays g.
Proof. intros E R m x m1 H. rewrite <- E in H. destruct (R _ _ _ H) as [A B]. split; auto. intros. rewrite <- E. auto. Qed.
Lemma replays_ret {X} (x : X) : replays (fun m => Ok (x, m)).
Proof. intros m y m1 H. injection H as <- <-. split; [apply grow_refl|auto]. Qed.
Lemma replays_fail {X} (e : res (X * mgr)) : (forall y, e <> Ok y) -> replays (fun _ => e).
Proof. intros NE m x m1 H. exfalso. eapply NE; eauto. Qed.
Lemma replays_bind {X Y} (f : mgr -> res (X * mgr)) (k : X -> mgr -> res (Y * mgr)) : replays f -> (forall x, replays (k x)) ->
  replays (fun m => do (x, m') <- f m ;; k x m').
Proof.
  intros Rf Rk m y m1 H. bk H as [x m'] E. destruct (Rf _ _ _ E) as [G1 B1]. destruct (Rk _ _ _ _ H) as [G2 B2].
  split; [eapply grow_trans; eauto|]. intros m2 W LG G. rewrite B1; auto; [|eapply grow_trans; eauto]. cbn [bind]. auto.
Qed.
Lemma replays_read {X Y} (r : mgr -> res Y) (k : Y -> mgr -> res (X * mgr)) : stable r -> (forall y, replays (k y)) ->
  replays (fun m => do y <- r m ;; k y m).
Proof.
  intros S Rk m x m1 H. bk H as y E. destruct (Rk _ _ _ _ H) as [G B]. split; auto. intros m2 W LG G2.
  rewrite (S m m2 y); auto; [|eapply grow_trans; eauto]. cbn [bind]. auto.
Qed.
(** Case distinction on the vtree only *)
Lemma replays_vt {X} (f : vtree -> mgr -> res (X * mgr)) : (forall t, replays (f t)) -> replays (fun m => f (m_vt m) m).
Proof.
  intros R m x m1 H. destruct (R _ _ _ _ H) as [G B]. split; auto. intros m2 W LG G2. destruct (grow_trans _ _ _ G G2) as (-> & _). auto.
Qed.

Lemma node_less_irrefl' (a : node) : equiv a a = true.
Proof. apply equiv_refl; auto. Qed.
Lemma replays_unique nd : node_good pg nd -> replays (fun m => Ok (GetUniqueNode m nd)).
Proof.
  intros G m i m1 H. injection H as H.
  assert (grow m m1 /\ In i (m_live m1) /\ exists ndi, nth_error (m_heap m1) i = Some ndi /\ same_slot (m_vt m1) nd ndi = true /\ equiv nd ndi = true) as (GR & L & ndi & E & S & Q).
  { unfold GetUniqueNode in H. destruct (find _ (m_live m)) as [j|] eqn:F; injection H as <- <-.
    - split; [apply grow_refl|]. apply find_some in F as [F1 F2]. split; auto.
      destruct (nth_error (m_heap m) j) as [b|] eqn:Ej; [|discriminate]. apply andb_true_iff in F2 as [F2 F3]. eauto.
    - split; [|split]; simpl.
      + split; [reflexivity|]. split; [eexists; reflexivity|]. apply incl_appl, incl_refl.
      + apply in_or_app. right. left. auto.
      + exists nd. rewrite nth_error_app2, Nat.sub_diag by auto. split; auto. split; [|apply node_less_irrefl'].
        unfold same_slot. rewrite Nat.eqb_refl. destruct (n_body nd); auto. }
  split; auto. intros m2 W LG G2. f_equal.
  pose proof (grow_nth _ _ _ _ G2 E) as E2. assert (In i (m_live m2)) as L2 by (apply G2; auto).
  destruct G2 as (V2 & _). rewrite <- V2 in S. unfold GetUniqueNode.
  destruct (find _ (m_live m2)) as [j|] eqn:F.
  - apply find_some in F as [F1 F2]. destruct (nth_error (m_heap m2) j) as [b|] eqn:Ej; [|discriminate].
    apply andb_true_iff in F2 as [F2 F3]. f_equal. symmetry. eapply (wf_canon _ W i j ndi b); eauto.
    + unfold same_slot in S, F2 |- *. apply andb_true_iff in S as [S1 S2], F2 as [S3 S4]. apply Nat.eqb_eq in S1, S3.
      rewrite <- S1, <- S3, Nat.eqb_refl. simpl. destruct (n_body nd), (n_body ndi), (n_body b); auto.
    + destruct (comparator_swo pg HO ndi nd b) as (_ & _ & _ & T & _); eauto. apply T; auto. rewrite equiv_sym. auto.
  - exfalso. eapply find_none in F; eauto. simpl in F. rewrite E2, S, Q in F. discriminate.
Qed.
Notation rprog := (prog (fun _ pt _ => pg pt) pg).
Lemma okn_good nd : okn (fun _ pt _ => pg pt) pg nd -> node_good pg nd.
Proof. unfold okn, node_good. destruct (n_body nd); auto. intros [H _]. auto. Qed.
Theorem prog_replays {X} (f : mgr -> res (X * mgr)) : rprog f -> replays f.
Proof.
  induction 1.
  - apply replays_ret.
  - intros m x m1 E. exfalso. eapply H; eauto.
  - apply replays_bind; auto.
  - apply replays_read; auto.
  - apply replays_vt; auto.
  - apply replays_unique. apply okn_good; auto.
  - eapply replays_ext; eauto.
Qed.
Context (pg0 : pg pzero) (pg1 : pg pone).
Theorem replays_GetTrueNode p fl : replays (GetTrueNode p fl).
Proof. apply prog_replays, prog_GetTrueNode; auto. Qed.
Theorem replays_Normalize target cur fl : replays (NormalizePsddNode target cur fl).
Proof. apply prog_replays, prog_Normalize; auto. Qed.
Theorem replays_Conformed primes subs params fl : Forall pg params -> replays (fun m => GetConformedPsddDecisionNode m primes subs params fl).
Proof. intros. apply prog_replays, prog_Conformed; auto. Qed.
Theorem replays_literal l fl : replays (fun m => GetPsddLiteralNode m l fl).
Proof. apply prog_replays, prog_literal; auto. Qed.
Theorem replays_top v fl pt pf : pg pt -> replays (fun m => GetPsddTopNode m v fl pt pf).
Proof. intros. apply prog_replays, prog_top; auto. Qed.
Theorem replays_Load (hs : heap) ud target root fl : params_good (fun _ pt _ => pg pt) pg fl hs -> replays (LoadPsddNode hs ud target root fl).
Proof. intros. apply prog_replays, prog_Load; auto. Qed.

(** ** Multiply (all parameters comparable) *)
Context (pg_all : forall a, pg a).
Definition mreplays (rec : nat -> nat -> mgr * @mcache P -> res (@mres P * (mgr * @mcache P))) : Prop :=
  forall a b m c r m1 c1, rec a b (m, c) = Ok (r, (m1, c1)) ->
    grow m m1 /\ (forall m2, Wf m2 -> live_good pg m2 -> grow m1 m2 -> rec a b (m2, c) = Ok (r, (m2, c1))).
Lemma cache_pos_stable i : stable (fun m : mgr => cache_pos m i).
Proof.
  intros m m' y G H. unfold cache_pos in *. bk H as p E. rewrite (stable_vt_of i m m' p G E). cbn [bind]. destruct G as (-> & _). exact H.
Qed.
Lemma cache_update_stable c a b r : stable (fun m : mgr => cache_update m c a b r).
Proof.
  intros m m' y G H. unfold cache_update in *. bk H as p E. rewrite (cache_pos_stable a m m' p G E). exact H.
Qed.
Lemma pg_allF (l : list P) : Forall pg l.
Proof. apply Forall_forall. auto. Qed.
Lemma mreplays_pairs rec : mreplays rec -> forall l acc part m c acc' part' m1 c1,
  foldM (mul_pair rec) l (acc, part, (m, c)) = Ok (acc', part', (m1, c1)) ->
  grow m m1 /\ (forall m2, Wf m2 -> live_good pg m2 -> grow m1 m2 -> foldM (mul_pair rec) l (acc, part, (m2, c)) = Ok (acc', part', (m2, c1))).
Proof.
  intros R l. induction l as [|[a b] l IH]; intros acc part m c acc' part' m1 c1 H.
  - cbn [foldM] in H. injection H as <- <- <- <-. split; [apply grow_refl|auto].
  - cbn [foldM] in H |- *. bk H as [[acc0 part0] [m0 c0]] E. destruct (IH _ _ _ _ _ _ _ _ H) as [G2 B2].
    assert (grow m m0 /\ (forall m2, Wf m2 -> live_good pg m2 -> grow m0 m2 -> mul_pair rec (acc, part, (m2, c)) (a, b) = Ok (acc0, part0, (m2, c0)))) as [G1 B1].
    { unfold mul_pair in E |- *. bk E as [pr [m3 c3]] E1. destruct (R _ _ _ _ _ _ _ E1) as [G3 B3]. destruct (fst pr) as [pi|] eqn:Epr.
      - bk E as [sr [m4 c4]] E2. destruct (R _ _ _ _ _ _ _ E2) as [G4 B4].
        assert (m0 = m4 /\ c0 = c4) as [-> ->] by (destruct (fst sr); injection E; auto).
        split; [eapply grow_trans; eauto|]. intros m2 W LG G. rewrite B3; auto; [|eapply grow_trans; eauto]. cbn [bind]. rewrite Epr.
        rewrite B4; auto. cbn [bind]. destruct (fst sr); injection E as <- <-; reflexivity.
      - injection E as <- <- <- <-. split; auto. intros m2 W LG G. rewrite B3; auto. cbn [bind]. rewrite Epr. reflexivity. }
    split; [eapply grow_trans; eauto|]. intros m2 W LG G. rewrite B1; auto; [|eapply grow_trans; eauto]. cbn [bind]. auto.
Qed.
Lemma mreplays_multiply fl : forall fuel, mreplays (multiply_with_cache fuel fl).
Proof.
  induction fuel as [|f IH]; intros a b m c r m1 c1 H; [discriminate|]. cbn [multiply_with_cache] in H |- *.
  bk H as pos E0. destruct (alookup key_eqb (pos, a, b) c) as [r0|] eqn:EL.
  { injection H as <- <- <-. split; [apply grow_refl|]. intros m2 W LG G. rewrite (cache_pos_stable a m m2 pos G E0). cbn [bind]. rewrite EL. reflexivity. }
  bk H as na Ea. bk H as nb Eb. bk H as u0 Ev. destruct u0.
  assert (forall m2, grow m m2 -> forall k : node -> node -> res (@mres P * (mgr * @mcache P)), 
    (do pos0 <- cache_pos m2 a ;; match alookup key_eqb (pos0, a, b) c with Some r1 => Ok (r1, (m2, c)) | None => 
      do na0 <- get (nth_error (m_heap m2) a) ;; do nb0 <- get (nth_error (m_heap m2) b) ;;
      do _ <- assert (Nat.eqb (vpos (m_vt m2) (n_vt na0)) (vpos (m_vt m2) (n_vt nb0))) ;; k na0 nb0 end) = k na nb) as PRE.
  { intros m2 G k. rewrite (cache_pos_stable a m m2 pos G E0). cbn [bind]. rewrite EL.
    rewrite (stable_nth a m m2 na G Ea). cbn [bind]. rewrite (stable_nth b m m2 nb G Eb). cbn [bind].
    destruct G as (-> & _). rewrite Ev. reflexivity. }
  destruct (n_body na) as [la|va pta pfa|ea] eqn:Ba, (n_body nb) as [lb|vb ptb pfb|eb] eqn:Bb; try discriminate.
  - bk H as u1 Eu. destruct u1. destruct (Z.eqb la lb) eqn:Ez.
    + bk H as [i m3] E1. bk H as c3 E2. injection H as <- <- <-. destruct (replays_literal la fl _ _ _ E1) as [G1 B1].
      split; auto. intros m2 W LG G. rewrite PRE by (eapply grow_trans; eauto). rewrite Ba, Bb, Eu. cbn [bind]. rewrite Ez, (B1 m2) by auto. cbn [bind].
      rewrite (cache_update_stable _ _ _ _ m3 m2 c3 G E2). reflexivity.
    + bk H as c3 E2. injection H as <- <- <-. split; [apply grow_refl|]. intros m2 W LG G. rewrite PRE by auto.
      rewrite Ba, Bb, Eu. cbn [bind]. rewrite Ez. rewrite (cache_update_stable _ _ _ _ m m2 c3 G E2). reflexivity.
  - bk H as u1 Eu. destruct u1. bk H as [i m3] E1. bk H as c3 E2. injection H as <- <- <-. destruct (replays_literal la fl _ _ _ E1) as [G1 B1].
    split; auto. intros m2 W LG G. rewrite PRE by (eapply grow_trans; eauto). rewrite Ba, Bb, Eu. cbn [bind]. rewrite (B1 m2) by auto. cbn [bind].
    rewrite (cache_update_stable _ _ _ _ m3 m2 c3 G E2). reflexivity.
  - bk H as u1 Eu. destruct u1. bk H as [i m3] E1. bk H as c3 E2. injection H as <- <- <-. destruct (replays_literal lb fl _ _ _ E1) as [G1 B1].
    split; auto. intros m2 W LG G. rewrite PRE by (eapply grow_trans; eauto). rewrite Ba, Bb, Eu. cbn [bind]. rewrite (B1 m2) by auto. cbn [bind].
    rewrite (cache_update_stable _ _ _ _ m3 m2 c3 G E2). reflexivity.
  - bk H as u1 Eu. destruct u1. bk H as [i m3] E1. bk H as nd En. destruct (n_body nd) as [|v' t' f'|] eqn:Bn; try discriminate.
    bk H as u2 Eu2. bk H as u3 Eu3. bk H as c3 E2. injection H as <- <- <-. destruct u2, u3.
    destruct (replays_top va fl _ _ (pg_all _) _ _ _ E1) as [G1 B1].
    split; auto. intros m2 W LG G. rewrite PRE by (eapply grow_trans; eauto). rewrite Ba, Bb, Eu. cbn [bind]. rewrite (B1 m2) by auto. cbn [bind].
    rewrite (stable_nth i m3 m2 nd G En). cbn [bind]. rewrite Bn, Eu2. cbn [bind]. rewrite Eu3. cbn [bind].
    rewrite (cache_update_stable _ _ _ _ m3 m2 c3 G E2). reflexivity.
  - bk H as [[acc part] [m3 c3]] E1. destruct (mreplays_pairs _ IH _ _ _ _ _ _ _ _ _ E1) as [G1 B1]. destruct acc as [|e0 acc].
    + bk H as c4 E2. injection H as <- <- <-. split; auto. intros m2 W LG G. rewrite PRE by (eapply grow_trans; eauto). rewrite Ba, Bb.
      rewrite (B1 m2) by auto. cbn [bind]. rewrite (cache_update_stable _ _ _ _ m3 m2 c4 G E2). reflexivity.
    + bk H as u1 Eu. destruct u1. bk H as [i m4] E2. bk H as c4 E3. injection H as <- <- <-.
      destruct (replays_Conformed _ _ _ fl (pg_allF _) _ _ _ E2) as [G2 B2].
      split; [eapply grow_trans; eauto|]. intros m2 W LG G. rewrite PRE by (eapply grow_trans; [|exact G]; eapply grow_trans; eauto). rewrite Ba, Bb.
      rewrite (B1 m2) by (auto; eapply grow_trans; eauto). cbn [bind]. rewrite Eu. cbn [bind]. rewrite (B2 m2) by auto. cbn [bind].
      rewrite (cache_update_stable _ _ _ _ m4 m2 c4 G E3). reflexivity.
Qed.
Theorem replays_Multiply a b fl : replays (fun m => Multiply m a b fl).
Proof.
  intros m r m1 H. unfold Multiply in H |- *. bk H as [r0 [m0 c0]] E. injection H as <- <-.
  destruct (mreplays_multiply fl _ _ _ _ _ _ _ _ E) as [G B]. split; auto. intros m2 W LG G2. pose proof (B m2 W LG G2) as B'.
  cbv [mcache mres] in B' |- *. rewrite B'. reflexivity.
Qed.
End Replay.

(** ** Histories that keep the invariant of the tops *)
From Coq Require Import Reals.
From Verif Require Import Spec RepProofs LoadProofs MulProofs.
Section Tidy.
Context {P : pops} (val : P -> R) (HP : pexact P val) (fl : N).
Notation heap := (heap P). Notation mgr := (mgr P). Notation node := (node P).
Definition okt_tops (f : N) (pt pf : P) : Prop := f = fl -> top_ok (val pt) (val pf).
Notation tprog := (prog okt_tops (fun _ : P => True)).
Definition tr (m : mgr) : Prop := (forall i, In i (m_live m) -> (i < length (m_heap m))%nat) /\ tops_ok val m fl.
Lemma tprog_keeps {X} (f : mgr -> res (X * mgr)) : tprog f -> forall m x m1, f m = Ok (x, m1) -> tr m -> tr m1.
Proof.
  induction 1; intros m x0 m1 E T.
  - injection E as <- <-. auto.
  - exfalso. eapply H; eauto.
  - bk E as [y m'] E1. eauto.
  - bk E as y' E1. eauto.
  - eauto.
  - injection E as E. unfold GetUniqueNode in E. destruct (find _ (m_live m)); injection E as <- <-; auto.
    destruct T as [T1 T2]. split; simpl.
    + intros i Hi. rewrite app_length. simpl. apply in_app_or in Hi as [Hi|[<-|[]]]; [specialize (T1 i Hi)|]; lia.
    + intros i nd0 v pt pf Hi En Ef Eb. simpl in *. apply in_app_or in Hi as [Hi|[<-|[]]].
      * rewrite nth_error_app1 in En by auto. eapply T2; eauto.
      * rewrite nth_error_app2, Nat.sub_diag in En by auto. injection En as <-. unfold okn in H. rewrite Eb in H. apply H; auto.
  - rewrite <- H in E. eauto.
Qed.
(** What an operation must respect: tops (and sources of loads) have parameters that sum to one with a positive false
    parameter or are the constant (1,1); products are taken of nodes with positive parameters. *)
Definition op_fine (m : mgr) (o : @op P) : Prop :=
  match o with
  | OTop v f pt pf => f = fl -> top_ok (val pt) (val pf)
  | OLoad hs _ _ _ f => f = fl -> forall i nd v pt pf, nth_error hs i = Some nd -> n_body nd = BTop v pt pf -> top_ok (val pt) (val pf)
  | OMul a b f => f = fl -> exists p ta tb, node_at val m a p ta /\ node_at val m b p tb /\ positive ta /\ positive tb
  | _ => True
  end.
Inductive tidy : mgr -> Prop :=
| tidy_new t : NoDup (leaves t) -> tidy (new_mgr t)
| tidy_step m o m' : tidy m -> op_fine m o -> step m o = Ok m' -> tidy m'.
Lemma okt_one f : okt_tops f pone pone.
Proof. intros _. left. rewrite (val_one HP). auto. Qed.
Lemma tr_filter (m : mgr) g : tr m -> tr (MkM (m_vt m) (m_heap m) (filter g (m_live m))).
Proof.
  intros [T1 T2]. split; simpl.
  - intros i Hi. apply filter_In in Hi as [Hi _]. auto.
  - intros i nd v pt pf Hi. simpl in *. apply filter_In in Hi as [Hi _]. eauto.
Qed.
Theorem tidy_inv (m : mgr) : tidy m -> Inv val fl m.
Proof.
  induction 1 as [t ND|m o m' T IH OF E].
  - split; [apply wf_new; auto|]. intros i nd v pt pf [].
  - destruct IH as [W TO]. destruct (step_wf (val_peq_refl val HP) (val_plt_irrefl val HP) m o m' W E) as (W' & _). split; auto.
    assert (tr m) as TR by (split; [apply W|auto]).
    cut (tr m'); [intros [_ ?]; auto|].
    destruct o as [v f pt pf|l f|ps ss ws f|p f|tg i f|hs ud tg r f|a b f|used|flags]; cbn [step op_fine] in E, OF.
    + bk E as [i m1] E1. injection E as <-. refine (tprog_keeps (fun m => GetPsddTopNode m v f pt pf) _ m _ m1 E1 TR). apply prog_top. exact OF.
    + bk E as [i m1] E1. injection E as <-. refine (tprog_keeps (fun m => GetPsddLiteralNode m l f) _ m _ m1 E1 TR). apply prog_literal.
    + bk E as [i m1] E1. injection E as <-. refine (tprog_keeps (fun m => GetConformedPsddDecisionNode m ps ss ws f) _ m _ m1 E1 TR). apply prog_Conformed; auto using okt_one. apply Forall_forall; auto.
    + bk E as [i m1] E1. injection E as <-. refine (tprog_keeps (GetTrueNode p f) _ m _ m1 E1 TR). apply prog_GetTrueNode; auto using okt_one.
    + bk E as [i' m1] E1. injection E as <-. refine (tprog_keeps (NormalizePsddNode tg i f) _ m _ m1 E1 TR). apply prog_Normalize; auto using okt_one.
    + bk E as [[i' u'] m1] E1. injection E as <-. refine (tprog_keeps (LoadPsddNode hs ud tg r f) _ m _ m1 E1 TR). apply prog_Load; auto using okt_one.
      intros i nd En. destruct (n_body nd) as [|v pt pf|] eqn:Eb; auto.
      * intros Ef. eapply OF; eauto.
      * apply Forall_forall; auto.
    + bk E as [r m1] E1. injection E as <-. destruct (N.eq_dec f fl) as [->|NE].
      * destruct (OF eq_refl) as (p & ta & tb & Na & Nb & Pa & Pb).
        destruct (multiply_spec val HP fl m a b p ta tb (conj W TO) Na Nb Pa Pb) as (r' & m2 & E2 & [W2 T2] & _). rewrite E1 in E2. injection E2 as <- <-.
        split; [apply W2|auto].
      * split; [apply W'|]. apply multiply_wf in E1 as [_ X]; auto; [|apply (val_peq_refl val HP)|apply (val_plt_irrefl val HP)].
        apply (tops_frame val f fl m m1 W X); auto.
    + unfold DeleteUnusedPsddNodes in E. bk E as c Ec. injection E as <-. apply tr_filter. auto.
    + injection E as <-. apply tr_filter. auto.
Qed.
End Tidy.
