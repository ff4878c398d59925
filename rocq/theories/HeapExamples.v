(** Concrete histories used as non-vacuity examples and witnesses, and final forms of the C09-C16 lemmas. *)
From Coq Require Import Reals Lra.
From Verif Require Import Base Param ParamProofs Vtree VtreeProofs Spec SpecProofs Heap Manager HeapProofs SerProofs
  RepProofs OrderProofs CanonProofs.

Definition ex_vt := VNode (VNode (Leaf 1) (Leaf 2)) (VNode (Leaf 3) (Leaf 4)).
Definition q (a : N) (b : BinNums.positive) : Qex := MkQ a b.
(** x1 <-> x2 with parameters (node 4), independent x3, x4 (node 7), their product (node 8), a second PSDD (node 9) and a
    product that is then dropped by garbage collection *)
Definition ex_ops : list (@op Qex) :=
  [OLit 1 0; OLit (-1) 0; OLit 2 0; OLit (-2) 0;
   ODec [0; 1] [2; 3] [q 1 4; q 3 4] 0;
   OTop 3 0 (q 1 3) (q 2 3); OTop 4 0 (q 1 2) (q 1 2);
   ODec [5] [6] [q 1 1] 0; ODec [4] [7] [q 1 1] 0; ODec [0; 1] [3; 2] [q 1 2; q 1 2] 0;
   OMul 4 4 2; OGcFlags [0]%N].
Definition ex_m : mgr Qex := Eval vm_compute in match runs (new_mgr ex_vt) ex_ops with Ok m => m | _ => new_mgr ex_vt end.
Lemma ex_runs : runs (new_mgr ex_vt) ex_ops = Ok ex_m.
Proof. vm_compute. reflexivity. Qed.
Lemma ex_wf : exists m, runs (new_mgr ex_vt) ex_ops = Ok m /\ Wf m.
Proof.
  exists ex_m. split; [apply ex_runs|].
  apply (@runs_wf Qex (@val_peq_refl Qex qval Qex_exact) (@val_plt_irrefl Qex qval Qex_exact) ex_ops (new_mgr ex_vt) ex_m).
  - apply wf_new. vm_compute. repeat constructor; simpl; intuition congruence.
  - apply ex_runs.
Qed.

Lemma good_zero : cgood (lc (Fin 0)).
Proof. unfold cgood, good, fresh, in_range; simpl. split; auto. rewrite Rmult_0_l, Rabs_R0. lra. Qed.
Lemma good_neginf : cgood (lc NegInf).
Proof. split; [reflexivity|exact I]. Qed.
Lemma ex_node_good : node_good cgood (MkN (P := Lcode) [] 3 (BDec [MkE 1 2 (lc (Fin 0)); MkE 4 2 (lc NegInf)])).
Proof. repeat constructor; try apply good_zero; apply good_neginf. Qed.

Lemma comparator_swo_exact P val : pexact P val -> forall a b c : node P,
  node_less a a = false /\ (node_less a b = true -> node_less b a = false) /\
  (node_less a b = true -> node_less b c = true -> node_less a c = true) /\
  (equiv a b = true -> equiv b c = true -> equiv a c = true) /\
  (equiv a b = true <-> node_eq a b = true).
Proof.
  intros HP a b c. assert (forall n : node P, node_good (fun _ => True) n) as G.
  { intros n. unfold node_good. destruct (n_body n); auto. apply Forall_forall. auto. }
  apply (comparator_swo (fun _ => True) (pord_exact P val HP)); auto.
Qed.
Lemma code_refl (a : Lcode) : peq a a = true.
Proof. apply p_eq_refl. Qed.
Lemma code_irrefl (a : Lcode) : plt a a = false.
Proof. apply p_lt_irrefl. Qed.
Lemma history_canonical_code t ops (m : mgr Lcode) : NoDup (leaves t) -> runs (new_mgr t) ops = Ok m ->
  NoDup (m_live m) /\
  (forall i, In i (m_live m) -> i < length (m_heap m)) /\
  (forall i j a b, In i (m_live m) -> In j (m_live m) ->
    nth_error (m_heap m) i = Some a -> nth_error (m_heap m) j = Some b ->
    n_vt a = n_vt b -> node_eq a b = true -> i = j).
Proof.
  apply (history_canonical code_refl code_irrefl).
  - intros a b. apply p_eq_sym.
  - intros a b E. simpl in *. unfold p_lt. rewrite E. reflexivity.
Qed.
Lemma asking_again_code t ops0 (m : mgr Lcode) ops m1 m2 i : NoDup (leaves t) -> runs (new_mgr t) ops0 = Ok m ->
  runs m1 ops = Ok m2 -> In i (m_live m2) ->
  (forall l fl, GetPsddLiteralNode m l fl = Ok (i, m1) -> GetPsddLiteralNode m2 l fl = Ok (i, m2)) /\
  (live_good cgood m2 ->
   (forall v fl pt pf, cgood pt -> GetPsddTopNode m v fl pt pf = Ok (i, m1) -> GetPsddTopNode m2 v fl pt pf = Ok (i, m2)) /\
   (forall p es fl, (exists l r, subtree t p = Some (VNode l r)) -> es <> [] -> direct m p es ->
      Forall (fun e => cgood (e_param e)) es ->
      GetConformedPsddDecisionNode m (map e_prime es) (map e_sub es) (map e_param es) fl = Ok (i, m1) ->
      GetConformedPsddDecisionNode m2 (map e_prime es) (map e_sub es) (map e_param es) fl = Ok (i, m2))).
Proof.
  intros ND R0 R L. apply (runs_wf code_refl code_irrefl) in R0 as (W & V & _); [|apply wf_new; auto].
  split.
  - intros l fl E. exact (literal_again cgood pord_code code_refl code_irrefl m l fl i m1 ops m2 W E R L).
  - intros LG. split.
    + intros v fl pt pf G E. exact (top_again cgood pord_code code_refl code_irrefl m v fl pt pf i m1 ops m2 W E R L LG G).
    + intros p es fl (l & r & HV) NE D G E. simpl in V.
      refine (dec_again cgood pord_code code_refl code_irrefl m p l r es fl i m1 ops m2 W _ NE D E R L LG G). rewrite V. exact HV.
Qed.
Lemma literal_content_code (m : mgr Lcode) l fl i m' : Wf m -> GetPsddLiteralNode m l fl = Ok (i, m') ->
  exists nd, nth_error (m_heap m') i = Some nd /\ n_flag nd = fl /\ n_body nd = BLit l /\
    subtree (m_vt m) (n_vt nd) = Some (Leaf (lit_var l)).
Proof.
  intros W E. unfold GetPsddLiteralNode in E. pose proof (leaf_path_spec (m_vt m) (Z.abs_N l)) as S.
  destruct (leaf_path (m_vt m) (Z.abs_N l)) as [p|] eqn:Ep; [|discriminate]. injection E as E.
  destruct (unique_wf code_refl code_irrefl m (MkN p fl (BLit l)) i m' W S E) as (_ & _ & _ & _ & nd & E1 & V & F & SS & Q).
  exists nd. split; auto. split; auto. simpl in V. rewrite V. split; [|exact S].
  unfold equiv, node_less in Q. simpl in F. rewrite F in Q. simpl in Q. rewrite N.eqb_refl in Q. simpl in Q.
  destruct (n_body nd) as [l'| |]; try discriminate. apply andb_true_iff in Q as [Q1 Q2].
  apply negb_true_iff in Q1, Q2. apply Z.ltb_ge in Q1, Q2. f_equal. lia.
Qed.
Lemma decision_content P val : pexact P val -> forall (m : mgr P) p l r es fl, Wf m ->
  subtree (m_vt m) p = Some (VNode l r) -> es <> [] -> direct m p es ->
  exists i m' nd es', GetConformedPsddDecisionNode m (map e_prime es) (map e_sub es) (map e_param es) fl = Ok (i, m') /\
    nth_error (m_heap m') i = Some nd /\ n_flag nd = fl /\ n_vt nd = p /\ n_body nd = BDec es' /\
    exists es2, Permutation es es2 /\ Forall2 (elem_same val) es2 es'.
Proof.
  intros HP m p l r es fl W HV NE D. rewrite (conformed_direct m p l r es fl) by auto.
  destruct (GetUniqueNode m (MkN p fl (BDec (sort_elems es)))) as [i m'] eqn:E.
  assert (NO : node_ok (m_vt m) (m_heap m) (length (m_heap m)) (MkN p fl (BDec (sort_elems es)))).
  { simpl. split; [|split; eauto].
    - intros Z. apply NE. pose proof (sort_elems_perm es) as PS. rewrite Z in PS. apply Permutation_nil in PS. auto.
    - apply Forall_forall. intros e He. apply (Permutation_in _ (sort_elems_perm es)) in He.
      unfold direct in D. rewrite Forall_forall in D. destruct (D e He) as [A B]. repeat split; auto; eapply vt_of_lt; eauto. }
  destruct (unique_wf (val_peq_refl val HP) (val_plt_irrefl val HP) m _ i m' W NO E) as (_ & _ & _ & _ & nd & E1 & V & F & SS & Q).
  apply (equiv_sim val HP) in Q. simpl in Q. destruct (n_body nd) as [| |es'] eqn:Eb; try contradiction.
  exists i, m', nd, es'. repeat (split; auto). exists (sort_elems es). split; auto. apply Permutation_sym, sort_elems_perm.
Qed.
Lemma top_content_false : exists (m m1 : mgr Qex) i j, 
  GetPsddTopNode (new_mgr ex_vt) 1 0 (q 1 1) (q 1 1) = Ok (i, m) /\
  GetPsddTopNode m 1 0 (q 1 1) (q 0 1) = Ok (j, m1) /\
  exists nd, nth_error (m_heap m1) j = Some nd /\ n_body nd = BTop 1 (q 1 1) (q 1 1).
Proof. do 4 eexists. split; [vm_compute; reflexivity|]. split; [vm_compute; reflexivity|]. eexists. split; vm_compute; reflexivity. Qed.
Lemma top_content P val : pexact P val -> forall (m : mgr P) fl v pt pf p, Wf m -> tops_ok val m fl ->
  subtree (m_vt m) p = Some (Leaf v) -> top_ok (val pt) (val pf) ->
  exists i m' nd pt' pf', GetPsddTopNode m v fl pt pf = Ok (i, m') /\ tops_ok val m' fl /\
    nth_error (m_heap m') i = Some nd /\ n_flag nd = fl /\ n_vt nd = p /\ n_body nd = BTop v pt' pf' /\
    val pt' = val pt /\ val pf' = val pf.
Proof.
  intros HP m fl v pt pf p W T S O.
  destruct (top_spec val HP fl m v pt pf p (conj W T) S O) as (i & m' & E & [W' T'] & X & L & [V R] & F).
  exists i, m'. apply (Rep_top_inv val) in R as (nd & pt' & pf' & E1 & E2 & E3 & E4). unfold vt_of, flag_of in *. rewrite E1 in *.
  injection V as V. injection F as F. exists nd, pt', pf'. repeat (split; auto).
Qed.
Lemma ex_tops_ok : exists m, runs (new_mgr ex_vt) ex_ops = Ok m /\ @tops_ok Qex qval m 0 /\ top_ok (qval (q 1 3)) (qval (q 2 3)).
Proof.
  exists ex_m. split; [apply ex_runs|]. split.
  - intros i nd v pt pf Hi E F B. unfold ex_m in Hi, E. cbn [m_live m_heap] in Hi, E.
    assert (i < 10) as L by (simpl in Hi; lia). clear Hi.
    do 10 (destruct i as [|i]; [cbn [nth_error] in E; injection E as <-; cbn [n_body] in B;
      first [discriminate B | injection B as <- <- <-; right; unfold qval; simpl; lra]|]). lia.
  - right; unfold qval; simpl; lra.
Qed.
Lemma immutable_code (m : mgr Lcode) ops m' : Wf m -> runs m ops = Ok m' ->
  (forall i nd, nth_error (m_heap m) i = Some nd -> nth_error (m_heap m') i = Some nd) /\
  (forall val i t, Rep val (m_heap m) i t -> Rep val (m_heap m') i t).
Proof.
  intros W R. split; [apply (history_immutable code_refl code_irrefl _ _ _ W R)|].
  intros val i t H. destruct (runs_wf code_refl code_irrefl _ _ _ W R) as (_ & _ & l & ->). apply Rep_ext; auto.
Qed.
(** Every child of a node in the table is in the table. *)
Definition live_closed {P} (m : mgr P) : Prop := forall i nd c, In i (m_live m) -> nth_error (m_heap m) i = Some nd ->
  In c (children nd) -> In c (m_live m).
Lemma gc_full (m : mgr Lcode) used : Wf m -> (forall u, In u used -> u < length (m_heap m)) ->
  exists m', DeleteUnusedPsddNodes m used = Ok m' /\ m_vt m' = m_vt m /\ m_heap m' = m_heap m /\
    (forall i, In i (m_live m') <-> In i (m_live m) /\ exists u, In u used /\ reach (m_heap m) u i) /\
    (live_closed m -> live_closed m').
Proof.
  intros W HU. destruct (gc_spec m used W HU) as (m' & E & V & H & L). exists m'. repeat (split; auto); intros; try apply L; auto.
  - intros i nd c Hi Ei Hc. rewrite H in Ei. apply L in Hi as [Hi (u & Hu & Ru)]. apply L. split; [eauto|].
    exists u. split; auto. eapply reach_snoc; eauto.
Qed.
Lemma serialization_full (m : mgr Lcode) root : Wf m -> root < length (m_heap m) ->
  exists L, SerializePsddNodes (m_heap m) [root] = Ok L /\ NoDup L /\ (forall j, In j L <-> reach (m_heap m) root j) /\
    (exists L', L = root :: L') /\
    (forall L1 i L2 nd c, L = L1 ++ i :: L2 -> nth_error (m_heap m) i = Some nd -> In c (children nd) -> In c L2) /\
    GetPsddSize (m_heap m) root = Ok (list_sum (map (size_at (m_heap m)) L)).
Proof.
  intros W H. destruct (psdd_size_spec (m_vt m) (m_heap m) root (wf_heap _ W) H) as (L & [A B C D E] & S).
  exists L. repeat (split; auto); intros; try apply C; auto. eapply E; eauto.
Qed.
Lemma multi_root_false : exists (m : mgr Qex) L i j nd, runs (new_mgr ex_vt) ex_ops = Ok m /\
  SerializePsddNodes (m_heap m) [4; 8] = Ok L /\ nth_error (m_heap m) i = Some nd /\ In j (children nd) /\
  exists L1 L2 L3, L = L1 ++ j :: L2 ++ i :: L3.
Proof.
  eexists. eexists. exists 8, 4. eexists. split; [vm_compute; reflexivity|]. split; [vm_compute; reflexivity|].
  split; [vm_compute; reflexivity|]. split; [left; reflexivity|]. exists [], []. eexists. reflexivity.
Qed.
Lemma multi_root_partial (m : mgr Lcode) roots : Wf m -> (forall r, In r roots -> r < length (m_heap m)) ->
  exists L, SerializePsddNodes (m_heap m) roots = Ok L /\ NoDup L /\
    (forall j, In j L <-> exists r, In r roots /\ reach (m_heap m) r j) /\
    (forall d, (forall r, In r roots -> depth (m_heap m) r = d) ->
      forall L1 i L2 nd c, L = L1 ++ i :: L2 -> nth_error (m_heap m) i = Some nd -> In c (children nd) -> In c L2).
Proof.
  intros W H. pose proof (heap_ok_closed _ _ (wf_heap _ W)) as CL. pose proof (heap_ok_graded _ _ (wf_heap _ W)) as G.
  destruct (serialize_spec (m_heap m) roots CL H) as (L & E & ND & IN & _). exists L. repeat (split; auto); intros; try apply IN; auto.
  eapply (serialize_parent_first (m_heap m) roots d L CL G H H0 E); eauto.
Qed.

(** ** Dropping nodes by flag *)
Lemma flags_spec {P} (m : mgr P) flags : let m' := DeletePsddNodesWithoutFlagIndexes m flags in
  m_vt m' = m_vt m /\ m_heap m' = m_heap m /\ (Wf m -> Wf m') /\
  (forall i, In i (m_live m') <->
     In i (m_live m) /\ exists nd, nth_error (m_heap m) i = Some nd /\ In (n_flag nd) flags) /\
  (live_closed m ->
   (forall i nd c nc, In i (m_live m) -> nth_error (m_heap m) i = Some nd -> In (n_flag nd) flags ->
      In c (children nd) -> nth_error (m_heap m) c = Some nc -> In (n_flag nc) flags) ->
   Wf m -> live_closed m').
Proof.
  intros m'. unfold m', DeletePsddNodesWithoutFlagIndexes. cbn [m_vt m_heap].
  split; auto. split; auto. split; [exact (gc_flags_wf m flags)|].
  assert (forall i, In i (m_live m') <->
     In i (m_live m) /\ exists nd, nth_error (m_heap m) i = Some nd /\ In (n_flag nd) flags) as K.
  { intros i. unfold m', DeletePsddNodesWithoutFlagIndexes. cbn [m_live]. rewrite filter_In.
    destruct (nth_error (m_heap m) i) as [nd|]; split.
    - intros [A B]. apply NmemB_In in B. eauto.
    - intros [A (nd' & B & C)]. injection B as <-. split; auto. apply NmemB_In; auto.
    - intros [_ B]. discriminate.
    - intros [_ (nd' & B & _)]. discriminate. }
  split; [exact K|]. intros C F W i nd c Hi E Hc. cbn [m_heap] in E. apply K in Hi as [Hi (nd' & E' & Hf)].
  rewrite E in E'. injection E' as <-. change (In c (m_live m')). apply K. 
  pose proof (C i nd c Hi E Hc) as Lc. split; auto.
  pose proof (wf_range _ W _ Lc) as B. 
  destruct (nth_error (m_heap m) c) as [nc|] eqn:Ec; [|apply nth_error_None in Ec; lia].
  exists nc. split; auto. exact (F i nd c nc Hi E Hf Hc Ec).
Qed.
(** A decision node with flag 5 over literals with flag 0 is kept without its children when the flags other than 5 are
    dropped; when the same four literals and the same decision node are then requested again, the manager makes a second
    decision node with the same distribution. *)
Definition flag_ops : list (@op Qex) :=
  [OLit 1 0; OLit (-1) 0; OLit 2 0; OLit (-2) 0; ODec [0; 1] [2; 3] [q 1 4; q 3 4] 5].
Definition flag_ops' : list (@op Qex) :=
  flag_ops ++ [OGcFlags [5]%N; OLit 1 0; OLit (-1) 0; OLit 2 0; OLit (-2) 0; ODec [5; 6] [7; 8] [q 1 4; q 3 4] 5].
Lemma flags_false : exists m m' : mgr Qex,
  runs (new_mgr ex_vt) flag_ops = Ok m /\ live_closed m /\
  ~ live_closed (DeletePsddNodesWithoutFlagIndexes m [5]%N) /\
  runs (new_mgr ex_vt) flag_ops' = Ok m' /\ In 4 (m_live m') /\ In 9 (m_live m') /\
  exists t, @Rep Qex qval (m_heap m') 4 t /\ @Rep Qex qval (m_heap m') 9 t.
Proof.
  eexists. eexists. split; [vm_compute; reflexivity|]. split; [|split; [|split; [vm_compute; reflexivity|split; [|split]]]].
  - intros i nd c. cbn [m_live m_heap]. intros Hi E Hc.
    assert (i < 5) as L by (cbn [In] in Hi; lia). clear Hi.
    do 5 (destruct i as [|i]; [cbn [nth_error] in E; injection E as <-; cbn in Hc; cbn [In]; lia|]). lia.
  - intros C. specialize (C 4 _ 0 (or_introl eq_refl) eq_refl). cbn in C. lia.
  - cbn [m_live In]. lia.
  - cbn [m_live In]. lia.
  - cbn [m_heap]. eexists. split.
    + eapply Rep_dec; [cbn [nth_error]; reflexivity|cbn [n_body]; reflexivity|].
      constructor; [|constructor; [|constructor]]; cbn [e_prime e_sub e_param].
      * instantiate (1 := (TLit 1, TLit 2, qval (q 1 4))). repeat split; eapply Rep_lit; try (cbn [nth_error]; reflexivity); reflexivity.
      * instantiate (1 := (TLit (-1), TLit (-2), qval (q 3 4))). repeat split; eapply Rep_lit; try (cbn [nth_error]; reflexivity); reflexivity.
    + eapply Rep_dec; [cbn [nth_error]; reflexivity|cbn [n_body]; reflexivity|].
      constructor; [|constructor; [|constructor]]; cbn [e_prime e_sub e_param].
      * repeat split; eapply Rep_lit; try (cbn [nth_error]; reflexivity); reflexivity.
      * repeat split; eapply Rep_lit; try (cbn [nth_error]; reflexivity); reflexivity.
Qed.
