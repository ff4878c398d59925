(** Final forms of the C24-C29 and C51 lemmas, concrete cases and witnesses. *)
From Coq Require Import Reals Lra.
From Verif Require Import Base Param ParamProofs Vtree VtreeProofs Spec SpecProofs Heap Manager HeapProofs SerProofs
  RepProofs OrderProofs CanonProofs HeapExamples LoadProofs MulProofs ReplayProofs.
Local Open Scope R_scope.

(** ** Concrete tidy history *)
Definition static_fine {P : pops} (val : P -> R) (fl : N) (o : @op P) : Prop :=
  match o with
  | OTop v f pt pf => f = fl -> top_ok (val pt) (val pf)
  | OLoad _ _ _ _ f => f <> fl
  | OMul a b f => f <> fl
  | _ => True
  end.
Lemma tidy_runs {P : pops} (val : P -> R) fl ops : forall (m m' : mgr P), tidy val fl m -> Forall (static_fine val fl) ops -> runs m ops = Ok m' -> tidy val fl m'.
Proof.
  induction ops as [|o ops IH]; intros m m' T F E.
  - injection E as <-. auto.
  - unfold runs in E. cbn [foldM] in E. bk E as m1 E1. inversion F; subst. apply (IH m1); auto.
    apply (tidy_step val fl m o m1); auto. destruct o; simpl in *; auto; intros; contradiction.
Qed.
Lemma ex_tidy : @tidy Qex qval 0 ex_m.
Proof.
  apply (@tidy_runs Qex qval 0 ex_ops (new_mgr ex_vt)); [|  |apply ex_runs].
  - constructor. vm_compute. repeat constructor; simpl; intuition congruence.
  - unfold ex_ops. repeat (constructor; [simpl; first [exact Logic.I | discriminate | intros _; right; unfold qval; simpl; lra]|]). constructor.
Qed.

(** ** C24 *)
Section Final.
Context {P : pops} (val : P -> R) (HP : pexact P val).
Notation pgT := (fun _ : P => True).
Lemma live_good_T (m : mgr P) : live_good pgT m.
Proof. intros j b _ _. unfold node_good. destruct (n_body b); auto. apply Forall_forall; auto. Qed.
Lemma replay_exact {X} (f : mgr P -> res (X * mgr P)) : replays pgT f -> forall m x m1, f m = Ok (x, m1) -> forall m2, Wf m2 -> grow m1 m2 -> f m2 = Ok (x, m2).
Proof. intros R m x m1 E m2 W G. destruct (R _ _ _ E) as [_ B]. apply B; auto. apply live_good_T. Qed.
Lemma true_node_full fl (m : mgr P) p s : tidy val fl m -> subtree (m_vt m) p = Some s ->
  exists i m' t, GetTrueNode p fl m = Ok (i, m') /\ vt_of (m_heap m') i = Some p /\ In i (m_live m') /\
    Rep val (m_heap m') i t /\ conforms s t /\ (forall x, weight t x = 1) /\ mext fl m m' /\
    (forall m2, Wf m2 -> grow m' m2 -> GetTrueNode p fl m2 = Ok (i, m2)).
Proof.
  intros T S. destruct (get_true_node_spec val HP fl m p s (tidy_inv val HP fl m T) S) as (i & m' & E & I' & X & [A1 A2] & L).
  exists i, m', (true_tree s). do 4 (split; auto). split; [apply true_tree_conforms|]. split; [apply true_tree_weight|]. split; auto.
  apply (replay_exact _ (replays_GetTrueNode _ (pord_exact P val HP) (val_peq_refl val HP) (val_plt_irrefl val HP) Logic.I Logic.I p fl) _ _ _ E).
Qed.
(** ** C25 *)
Lemma normalize_full fl (m : mgr P) i q t : tidy val fl m -> vt_of (m_heap m) i = Some q -> Rep val (m_heap m) i t ->
  (forall u p, q = u ++ p -> exists j m' t', NormalizePsddNode (Some p) i fl m = Ok (j, m') /\ mext fl m m' /\
      vt_of (m_heap m') j = Some p /\ Rep val (m_heap m') j t' /\ (exists s, subtree (m_vt m) p = Some s /\ conforms s t') /\
      (forall x, weight t' x = weight t x) /\ (forall x, base t' x = base t x) /\
      (u <> [] -> flag_of (m_heap m') j = Some fl /\ In j (m_live m'))) /\
  (forall target, (forall u p, q = u ++ p -> target <> Some p) -> NormalizePsddNode target i fl m = Abort).
Proof.
  intros T V R. apply tidy_inv in T as I; auto. split.
  - intros u p ->. destruct (normalize_spec val HP fl m u p i t I (conj V R)) as (j & m' & E & I' & X & A & _ & N).
    exists j, m', (lift (m_vt m) u p t). split; auto. split; auto. destruct (node_at_conforms val m' j p _ (proj1 I') A) as (s & S & C).
    rewrite (me_vt _ _ _ X) in S. split; [apply A|]. split; [apply A|]. split; [eauto|]. split; [intros; apply lift_weight|]. split; [intros; apply lift_base|]. auto.
  - intros target NT. apply (normalize_abort val HP fl m target i q t I (conj V R)). intros v [w ->]. eauto.
Qed.
(** ** C26 *)
Lemma load_full sroot (hs : heap P) root fl (m : mgr P) ud q s p u t :
  heap_ok sroot hs -> vt_of hs root = Some q -> subtree sroot q = Some s -> Rep val hs root t -> tops_fine t ->
  tidy val fl m -> emb (m_vt m) s (u ++ p) ->
  exists j ud' m' t', LoadPsddNode hs ud (Some p) root fl m = Ok (j, ud', m') /\ mext fl m m' /\
    vt_of (m_heap m') j = Some p /\ flag_of (m_heap m') j = Some fl /\ In j (m_live m') /\ Rep val (m_heap m') j t' /\
    (exists s', subtree (m_vt m) p = Some s' /\ conforms s' t') /\
    (forall x, weight t' x = weight t x) /\ (forall x, base t' x = base t x) /\
    (positive t -> positive t') /\ (deterministic t -> deterministic t') /\
    (subtree (m_vt m) p = Some s -> normalized t -> normalized t') /\
    (forall i, reach hs root i -> ud' i = None) /\ (forall i, ~ reach hs root i -> ud' i = ud i).
Proof.
  intros HO V S R TF T E. apply tidy_inv in T as I; auto.
  destruct (load_spec val HP sroot hs root fl m ud q s p u t HO V S E R TF I) as (j & ud' & m' & t1 & EL & I' & X & LD & A & FL & LV & U1 & U2).
  destruct (node_at_conforms val m' j p _ (proj1 I') A) as (s' & S' & C). rewrite (me_vt _ _ _ X) in S'.
  pose proof (like_trans _ _ _ (loaded_like _ _ _ _ _ LD) (like_lift (m_vt m) u p t1)) as LK.
  exists j, ud', m', (lift (m_vt m) u p t1). destruct A as [A1 A2]. split; auto. split; auto. split; auto. split; auto. split; auto. split; auto.
  split; [eauto|]. split; [apply LK|]. split; [apply LK|]. split; [apply LK|]. split; [apply LK|]. split; [|auto].
  intros Sp N. assert (u = []) as ->.
  { assert (u ++ p = p) as Q by (eapply emb_fun; [apply I|exact E|apply emb_self; auto]). 
    apply (f_equal (@length _)) in Q. rewrite app_length in Q. destruct u; auto. simpl in Q. lia. }
  simpl in *. eapply loaded_normalized; eauto. apply I.
Qed.
(** ** C27, C28 *)
Lemma multiply_full fl (m : mgr P) a b p ta tb : tidy val fl m ->
  vt_of (m_heap m) a = Some p -> vt_of (m_heap m) b = Some p -> Rep val (m_heap m) a ta -> Rep val (m_heap m) b tb ->
  positive ta -> positive tb ->
  exists r z m', Multiply m a b fl = Ok ((r, z), m') /\ mext fl m m' /\
    (r = None <-> forall x, weight ta x * weight tb x = 0) /\
    match r with
    | None => val z = 0
    | Some i => 0 < val z /\ exists t, Rep val (m_heap m') i t /\ forall x, weight t x * val z = weight ta x * weight tb x
    end.
Proof.
  intros T Va Vb Ra Rb Pa Pb. apply tidy_inv in T as I; auto.
  destruct (multiply_spec val HP fl m a b p ta tb I (conj Va Ra) (conj Vb Rb) Pa Pb) as ([r z] & m' & E & I' & X & M).
  exists r, z, m'. split; auto. split; auto. split; [apply (multiply_null val HP fl m a b p ta tb (r, z) m' I (conj Va Ra) (conj Vb Rb) Pa Pb E)|].
  unfold mul_ok in M. simpl in M. destruct r as [i|]; [|apply M]. destruct M as (t & [A1 A2] & PO & _). split; [apply PO|]. exists t. split; auto. apply PO.
Qed.
Lemma multiply_shape fl (m : mgr P) a b p ta tb i z m' : tidy val fl m ->
  vt_of (m_heap m) a = Some p -> vt_of (m_heap m) b = Some p -> Rep val (m_heap m) a ta -> Rep val (m_heap m) b tb ->
  positive ta -> positive tb -> Multiply m a b fl = Ok ((Some i, z), m') ->
  vt_of (m_heap m') i = Some p /\ flag_of (m_heap m') i = Some fl /\ In i (m_live m') /\
  exists s t, subtree (m_vt m) p = Some s /\ Rep val (m_heap m') i t /\ conforms s t /\ positive t /\ normalized t /\
    (forall x, base t x = base ta x && base tb x) /\ (deterministic ta -> deterministic tb -> deterministic t).
Proof.
  intros T Va Vb Ra Rb Pa Pb E. apply tidy_inv in T as I; auto.
  destruct (multiply_spec val HP fl m a b p ta tb I (conj Va Ra) (conj Vb Rb) Pa Pb) as (r & m1 & E1 & I' & X & M).
  rewrite E in E1. injection E1 as <- <-. unfold mul_ok in M. simpl in M. destruct M as (t & A & PO & FL & LV).
  destruct (node_at_conforms val m' i p _ (proj1 I') A) as (s & S & C). rewrite (me_vt _ _ _ X) in S.
  split; [apply A|]. split; auto. split; auto. exists s, t. split; auto. split; [apply A|]. split; auto. split; [apply PO|]. split; [apply PO|]. split; [apply PO|]. apply PO.
Qed.
(** ** C29: zero parameters that are not combined *)
Lemma multiply_zero_safe fl (m : mgr P) a b p ta tb : tidy val fl m ->
  vt_of (m_heap m) a = Some p -> vt_of (m_heap m) b = Some p -> Rep val (m_heap m) a ta -> Rep val (m_heap m) b tb ->
  safe ta tb ->
  exists r z m', Multiply m a b fl = Ok ((r, z), m') /\ mext fl m m' /\
    (r = None <-> forall x, weight ta x * weight tb x = 0) /\
    match r with
    | None => val z = 0
    | Some i => 0 < val z /\ vt_of (m_heap m') i = Some p /\ flag_of (m_heap m') i = Some fl /\ In i (m_live m') /\
        exists s t, subtree (m_vt m) p = Some s /\ Rep val (m_heap m') i t /\ conforms s t /\ positive t /\ normalized t /\
          (forall x, weight t x * val z = weight ta x * weight tb x) /\
          (forall x, base t x = base ta x && base tb x) /\ (deterministic ta -> deterministic tb -> deterministic t)
    end.
Proof.
  intros T Va Vb Ra Rb SF. apply tidy_inv in T as I; auto.
  destruct (multiply_safe val HP fl m a b p ta tb I (conj Va Ra) (conj Vb Rb) SF) as ([r z] & m' & E & I' & X & M).
  exists r, z, m'. split; auto. split; auto.
  split; [apply (multiply_safe_null val HP fl m a b p ta tb (r, z) m' I (conj Va Ra) (conj Vb Rb) SF E)|].
  unfold mul_ok in M. simpl in M. destruct r as [i|]; [|apply M]. destruct M as (t & A & PO & FL & LV).
  destruct (node_at_conforms val m' i p _ (proj1 I') A) as (s & S & C). rewrite (me_vt _ _ _ X) in S.
  split; [apply PO|]. split; [apply A|]. split; auto. split; auto. exists s, t. split; auto. split; [apply A|]. split; auto.
  destruct PO as [Z0 W0 B0 P0 N0 D0]. repeat (split; [assumption|]). assumption.
Qed.
(** ** C51 *)
Definition same_again {X} (f : mgr P -> res (X * mgr P)) : Prop :=
  forall m x m1, f m = Ok (x, m1) -> forall m2, Wf m2 -> grow m1 m2 -> f m2 = Ok (x, m2).
Lemma requests_again : (forall p fl, same_again (GetTrueNode p fl)) /\ (forall tg i fl, same_again (NormalizePsddNode tg i fl)) /\
  (forall ps ss ws fl, same_again (fun m => GetConformedPsddDecisionNode m ps ss ws fl)) /\
  (forall hs ud tg r fl, same_again (LoadPsddNode hs ud tg r fl)) /\
  (forall a b fl, same_again (fun m => Multiply m a b fl)).
Proof.
  pose proof (pord_exact P val HP) as O. pose proof (val_peq_refl val HP) as Hr. pose proof (val_plt_irrefl val HP) as Hi.
  split; [|split; [|split; [|split]]]; intros; intros m x m1 E.
  - apply (replay_exact _ (replays_GetTrueNode _ O Hr Hi Logic.I Logic.I p fl) _ _ _ E).
  - apply (replay_exact _ (replays_Normalize _ O Hr Hi Logic.I Logic.I tg i fl) _ _ _ E).
  - apply (replay_exact (fun m => GetConformedPsddDecisionNode m ps ss ws fl) (replays_Conformed _ O Hr Hi Logic.I Logic.I ps ss ws fl (proj2 (Forall_forall _ _) (fun _ _ => Logic.I))) _ _ _ E).
  - refine (replay_exact _ (replays_Load _ O Hr Hi Logic.I Logic.I hs ud tg r fl _) _ _ _ E).
    intros j nd En. destruct (n_body nd); auto. apply Forall_forall; auto.
  - apply (replay_exact (fun m => Multiply m a b fl) (replays_Multiply _ O Hr Hi Logic.I Logic.I (fun _ => Logic.I) a b fl) _ _ _ E).
Qed.
End Final.
Lemma good_one : cgood pone.
Proof.
  assert (@pone Lcode = lc (Fin 0)) as ->.
  { unfold lc. simpl. unfold p_of_decimal, xlog. destruct (Rlt_dec 0 1); [|lra]. rewrite ln_1. reflexivity. }
  apply good_zero.
Qed.
Lemma true_again_code p fl (m : mgr Lcode) i m1 m2 : GetTrueNode p fl m = Ok (i, m1) -> Wf m2 -> live_good cgood m2 -> grow m1 m2 ->
  GetTrueNode p fl m2 = Ok (i, m2).
Proof.
  intros E W LG G. destruct (replays_GetTrueNode cgood pord_code code_refl code_irrefl good_neginf good_one p fl _ _ _ E) as [_ B]. auto.
Qed.

(** ** C29: zero parameters *)
Definition z_ops : list (@op Qex) := [OTop 1 0 (q 0 1) (q 1 1); OLit 1 0; OLit (-1) 0; OTop 2 0 (q 1 2) (q 1 2);
  ODec [1; 2]%nat [3; 3]%nat [q 0 1; q 1 1] 0; ODec [2]%nat [3]%nat [q 1 1] 0].
Definition z_m : mgr Qex := Eval vm_compute in match runs (new_mgr (VNode (Leaf 1) (Leaf 2))) z_ops with Ok m => m | _ => new_mgr ex_vt end.
Lemma z_runs : runs (new_mgr (VNode (Leaf 1) (Leaf 2))) z_ops = Ok z_m.
Proof. vm_compute. reflexivity. Qed.
Definition z_top : ptree := TTop 1 0 1.
Definition z_dec : ptree := TDec [(TLit 1, TTop 2 (1/2) (1/2), 0); (TLit (-1), TTop 2 (1/2) (1/2), 1)].
Lemma z_tidy : @tidy Qex qval 0 z_m.
Proof.
  apply (@tidy_runs Qex qval 0 z_ops (new_mgr (VNode (Leaf 1) (Leaf 2)))); [| |apply z_runs].
    - constructor. vm_compute. repeat constructor; simpl; intuition congruence.
    - unfold z_ops. repeat (constructor; [simpl; first [exact Logic.I | discriminate | intros _; right; unfold qval; simpl; lra]|]). constructor.
Qed.
Lemma z_r3 : @Rep Qex qval (m_heap z_m) 3 (TTop 2 (1/2) (1/2)).
Proof. replace (1/2)%R with (qval (q 1 2)) by (unfold qval; simpl; lra). eapply Rep_top; reflexivity. Qed.
Lemma z_r4 : @Rep Qex qval (m_heap z_m) 4 z_dec.
Proof.
  pose proof z_r3. unfold z_dec. eapply Rep_dec; [reflexivity..|]. repeat constructor; unfold tp, ts, tw; simpl; auto; try (eapply Rep_lit; reflexivity); unfold qval; simpl; lra.
Qed.
(** [z_dec] has a zero parameter for x1; the other factor excludes x1. *)
Definition z_neg : ptree := TDec [(TLit (-1), TTop 2 (1/2) (1/2), 1)].
Lemma z_safe : @Rep Qex qval (m_heap z_m) 5 z_neg /\ vt_of (m_heap z_m) 4 = Some [] /\ vt_of (m_heap z_m) 5 = Some [] /\
  safe z_dec z_neg /\ ~ positive z_dec /\ exists i z m', Multiply z_m 4 5 0 = Ok ((Some i, z), m').
Proof.
  split. { pose proof z_r3. unfold z_neg. eapply Rep_dec; [reflexivity..|]. repeat constructor; unfold tp, ts, tw; simpl; auto; try (eapply Rep_lit; reflexivity); unfold qval; simpl; lra. }
  split; [reflexivity|]. split; [reflexivity|]. split.
  { apply safe_dec. unfold z_dec, z_neg. constructor; [|constructor; [|constructor]]; (constructor; [|constructor]); (split; [exact Logic.I|]); intros M.
    - exfalso. destruct M as [x M]. unfold tp in M; simpl in M. unfold lit_sat in M; simpl in M. destruct (x 1%N); discriminate.
    - unfold ts, tw; simpl. split; [lra|]. intros _. lra. }
  split. { intros H. apply all_nodes_root in H. unfold z_dec in H. inversion H as [|? ? H1 H2]; subst. unfold tw in H1; simpl in H1. lra. }
  do 3 eexists. vm_compute. reflexivity.
Qed.
Lemma zero_params_false : exists (m : mgr Qex) a b ta tb, @tidy Qex qval 0 m /\
  @Rep Qex qval (m_heap m) a ta /\ @Rep Qex qval (m_heap m) b tb /\ nonneg ta /\ normalized ta /\ nonneg tb /\ normalized tb /\
  deterministic ta /\ deterministic tb /\ Multiply m a a 0 = Abort /\ Multiply m b b 0 = Abort /\
  (exists x, 0 < weight ta x * weight ta x) /\ (exists x, 0 < weight tb x * weight tb x).
Proof.
  exists z_m, 0%nat, 4%nat, z_top, z_dec.
  split; [exact z_tidy|].
  split. { unfold z_top. replace 0 with (qval (q 0 1)) by (unfold qval; simpl; lra). replace 1 with (qval (q 1 1)) by (unfold qval; simpl; lra).
    eapply Rep_top; reflexivity. }
  split; [exact z_r4|].
  assert (forall x, base (TLit 1) x && base (TLit (-1)) x = false) as DJ. { intros x. simpl. unfold lit_sat. simpl. destruct (x 1%N); reflexivity. }
  split; [unfold nonneg, z_top; simpl; lra|]. split; [unfold normalized, z_top; simpl; lra|].
  split; [unfold nonneg, z_dec; simpl; unfold tw; simpl; repeat constructor; simpl; lra|]. split; [unfold normalized, z_dec; simpl; unfold tw; simpl; repeat split; lra|].
  split; [unfold deterministic, z_top; simpl; auto|].
  split. { unfold deterministic, z_dec. apply all_nodes_dec. split; [|repeat constructor; simpl; auto].
    repeat constructor. intros x. apply DJ. }
  split; [vm_compute; reflexivity|]. split; [vm_compute; reflexivity|]. split; exists (fun _ => false); simpl; unfold lit_sat; simpl; lra.
Qed.

(** ** Trees represented by the nodes of [ex_m] *)
Definition ex_t4 : ptree := TDec [(TLit 1, TLit 2, 1/4); (TLit (-1), TLit (-2), 3/4)].
Definition ex_t9 : ptree := TDec [(TLit 1, TLit (-2), 1/2); (TLit (-1), TLit 2, 1/2)].
Definition ex_t7 : ptree := TDec [(TTop 3 (1/3) (2/3), TTop 4 (1/2) (1/2), 1)].
Definition ex_t8 : ptree := TDec [(ex_t4, ex_t7, 1)].
Ltac qv := unfold qval; simpl; lra.
Ltac rep_lit := eapply Rep_lit; reflexivity.
Lemma ex_r4 : @Rep Qex qval (m_heap ex_m) 4 ex_t4.
Proof. unfold ex_t4. eapply Rep_dec; [reflexivity..|]. repeat constructor; unfold tp, ts, tw; simpl; try rep_lit; qv. Qed.
Lemma ex_r9 : @Rep Qex qval (m_heap ex_m) 9 ex_t9.
Proof. unfold ex_t9. eapply Rep_dec; [reflexivity..|]. repeat constructor; unfold tp, ts, tw; simpl; try rep_lit; qv. Qed.
Lemma ex_r7 : @Rep Qex qval (m_heap ex_m) 7 ex_t7.
Proof.
  unfold ex_t7. eapply Rep_dec; [reflexivity..|]. repeat constructor; unfold tp, ts, tw; simpl; [| |qv].
  - replace (1/3) with (qval (q 1 3)) by qv. replace (2/3) with (qval (q 2 3)) by qv. eapply Rep_top; reflexivity.
  - replace (1/2) with (qval (q 1 2)) by qv. eapply Rep_top; reflexivity.
Qed.
Lemma ex_r8 : @Rep Qex qval (m_heap ex_m) 8 ex_t8.
Proof.
  unfold ex_t8. eapply Rep_dec; [reflexivity..|]. repeat constructor; unfold tp, ts, tw; simpl; [apply ex_r4|apply ex_r7|qv].
Qed.
Lemma ex_positive : positive ex_t8 /\ positive ex_t4 /\ positive ex_t9.
Proof. unfold positive, ex_t8, ex_t4, ex_t7, ex_t9. repeat split; repeat constructor; unfold tw; simpl; try lra; auto. Qed.
Lemma ex_normalized : normalized ex_t8 /\ normalized ex_t4 /\ normalized ex_t9.
Proof. unfold normalized, ex_t8, ex_t4, ex_t7, ex_t9. repeat split; repeat constructor; unfold tw; simpl; try lra; auto. Qed.
Lemma ex_tops_fine : tops_fine ex_t8.
Proof. unfold tops_fine, ex_t8, ex_t4, ex_t7. simpl. unfold top_ok. repeat split; try (right; lra); auto. Qed.
Lemma lits_excl v x : base (TLit (Z.pos v)) x && base (TLit (Z.neg v)) x = false.
Proof. simpl. unfold lit_sat. simpl. destruct (x (N.pos v)); reflexivity. Qed.
Lemma ex_deterministic : deterministic ex_t8 /\ deterministic ex_t4 /\ deterministic ex_t9.
Proof.
  assert (deterministic ex_t4) as D4.
  { apply all_nodes_dec. split; [|repeat constructor; simpl; auto]. repeat constructor. intros x. apply (lits_excl 1). }
  split; [|split]; auto.
  - apply all_nodes_dec. split; [repeat constructor|]. constructor; [|constructor]. split; [exact D4|].
    apply all_nodes_dec. split; [repeat constructor|]. constructor; [|constructor]. simpl. auto.
  - apply all_nodes_dec. split; [|repeat constructor; simpl; auto]. repeat constructor. intros x. apply (lits_excl 1).
Qed.
Lemma ex_heap_ok : heap_ok ex_vt (m_heap ex_m).
Proof. destruct ex_wf as (m & E & W). rewrite ex_runs in E. injection E as <-. apply W. Qed.
(** Loading into a manager with a larger vtree *)
Definition big_vt := VNode (Leaf 9) ex_vt.
Lemma big_emb : emb big_vt ex_vt ([true] ++ []).
Proof. apply emb_self; vm_compute; auto; repeat constructor; simpl; intuition congruence. Qed.
Lemma big_tidy : @tidy Qex qval 5 (new_mgr big_vt).
Proof. constructor. vm_compute. repeat constructor; simpl; intuition congruence. Qed.
