(** Element order (C14) and asking again (C10). *)
From Coq Require Import Reals Lra Sorted.
From Verif Require Import Base Param ParamProofs Vtree VtreeProofs Heap Manager HeapProofs SerProofs OrderProofs.

Section Canon.
Context {P : pops}.
Notation heap := (heap P). Notation mgr := (mgr P). Notation node := (node P).
Definition ple (a b : elem P) := e_prime a <= e_prime b.
Lemma insert_sorted e (l : list (elem P)) : StronglySorted ple l -> StronglySorted ple (insert_elem e l).
Proof.
  induction 1 as [|x l S IH F]; simpl; [repeat constructor|].
  destruct (Nat.leb (e_prime e) (e_prime x)) eqn:E.
  - apply Nat.leb_le in E. constructor; [constructor; auto|]. constructor; [exact E|].
    eapply Forall_impl; [|exact F]. unfold ple. intros; lia.
  - apply Nat.leb_gt in E. constructor; auto. eapply Permutation_Forall; [apply Permutation_sym, insert_elem_perm|].
    constructor; [unfold ple; lia|auto].
Qed.
Lemma sort_sorted (l : list (elem P)) : StronglySorted ple (sort_elems l).
Proof. induction l as [|e l IH]; simpl; [constructor|]. apply insert_sorted; auto. Qed.
Lemma sorted_unique (l1 : list (elem P)) : forall l2, StronglySorted ple l1 -> StronglySorted ple l2 -> Permutation l1 l2 ->
  NoDup (map e_prime l1) -> l1 = l2.
Proof.
  induction l1 as [|a l1 IH]; intros l2 S1 S2 PM ND.
  - apply Permutation_nil in PM. auto.
  - destruct l2 as [|b l2]; [apply Permutation_sym, Permutation_nil in PM; discriminate|].
    inversion S1 as [|? ? S1' F1]; subst. inversion S2 as [|? ? S2' F2]; subst.
    simpl in ND. inversion ND as [|? ? NI ND']; subst.
    assert (a = b) as ->.
    { assert (In b (a :: l1)) as Hb by (eapply Permutation_in; [apply Permutation_sym; eauto|left; auto]).
      assert (In a (b :: l2)) as Ha by (eapply Permutation_in; [eauto|left; auto]).
      destruct Hb as [|Hb]; auto. destruct Ha as [|Ha]; auto. exfalso. apply NI.
      rewrite Forall_forall in F1, F2. apply F1 in Hb as L1. apply F2 in Ha as L2. unfold ple in *.
      replace (e_prime a) with (e_prime b) by lia. apply in_map. auto. }
    f_equal. apply IH; auto. apply Permutation_cons_inv with b. auto.
Qed.
Lemma sort_perm_eq (l1 l2 : list (elem P)) : Permutation l1 l2 -> NoDup (map e_prime l1) -> sort_elems l1 = sort_elems l2.
Proof.
  intros PM ND. apply sorted_unique; auto using sort_sorted.
  - eapply perm_trans; [apply sort_elems_perm|]. eapply perm_trans; [exact PM|]. apply Permutation_sym, sort_elems_perm.
  - eapply Permutation_NoDup; [|exact ND]. apply Permutation_map, Permutation_sym, sort_elems_perm.
Qed.

(** Elements already below the children of p: normalization is the identity. *)
Definition direct (m : mgr) (p : path) (es : list (elem P)) : Prop :=
  Forall (fun e => vt_of (m_heap m) (e_prime e) = Some (false :: p) /\ vt_of (m_heap m) (e_sub e) = Some (true :: p)) es.
Lemma normalize_id gt (p : path) fl cur tm (m : mgr) : vt_of (m_heap m) cur = Some p -> normalize_with gt (Some p) fl cur tm m = Ok (cur, tm, m).
Proof.
  intros V. unfold normalize_with. rewrite V. cbn [get bind norm_loop].
  unfold vt_of in V. destruct (nth_error (m_heap m) cur) as [nd|]; [|discriminate]. injection V as V. cbn [get bind].
  unfold opath_eqb. rewrite V, path_eqb_refl. reflexivity.
Qed.
Lemma conform_loop_direct gt (p : path) fl tm (m : mgr) es : direct m p es ->
  conform_loop gt (Some (false :: p)) (Some (true :: p)) fl (map e_prime es) (map e_sub es) tm m = Ok (map e_prime es, map e_sub es, m).
Proof.
  induction es as [|e es IH]; intros D; cbn [map conform_loop]; auto. inversion D as [|? ? [V1 V2] D']; subst.
  rewrite (normalize_id _ _ _ _ _ _ V1). cbn [bind]. rewrite (normalize_id _ _ _ _ _ _ V2). cbn [bind]. rewrite IH by auto. reflexivity.
Qed.
Lemma mk_elems_own (es : list (elem P)) : forall pre, pre ++ map e_param es <> [] ->
  mk_elems (pre ++ map e_param es) (length pre) (map e_prime es) (map e_sub es) = Ok es.
Proof.
  induction es as [|e es IH]; intros pre NE; simpl; auto.
  unfold param_at. destruct (pre ++ e_param e :: map e_param es) as [|w ws] eqn:E; [destruct pre; discriminate|].
  rewrite <- E. rewrite nth_error_app2, Nat.sub_diag by lia. simpl.
  specialize (IH (pre ++ [e_param e])). rewrite <- app_assoc, app_length in IH. simpl in IH.
  replace (length pre + 1)%nat with (S (length pre)) in IH by lia. rewrite IH.
  - simpl. destruct e; reflexivity.
  - destruct pre; discriminate.
Qed.
Lemma conformed_direct (m : mgr) p l r es fl : subtree (m_vt m) p = Some (VNode l r) -> es <> [] -> direct m p es ->
  GetConformedPsddDecisionNode m (map e_prime es) (map e_sub es) (map e_param es) fl =
  Ok (GetUniqueNode m (MkN p fl (BDec (sort_elems es)))).
Proof.
  intros HV NE D. unfold GetConformedPsddDecisionNode, conformed_with.
  destruct es as [|e es]; [congruence|]. inversion D as [|? ? [V1 V2] D']; subst.
  cbn [map hd_error get bind]. rewrite V1, V2. cbn [get bind].
  rewrite (vlca_split [] [] p : vlca (false :: p) (true :: p) = p).
  assert (forall b, vkid (m_vt m) p b = Some (b :: p)) as VK by (intros b; unfold vkid; rewrite HV; auto). rewrite !VK.
  pose proof (conform_loop_direct (get_true gt_fuel) p fl [] m (e :: es) D) as E. cbn [map] in E. rewrite E. cbn [bind].
  unfold new_dec. pose proof (mk_elems_own (e :: es) []) as E2. cbn [map app length] in E2. rewrite E2 by discriminate. reflexivity.
Qed.
Theorem conformed_order (m : mgr) p l r es es' fl : subtree (m_vt m) p = Some (VNode l r) -> es <> [] -> direct m p es ->
  NoDup (map e_prime es) -> Permutation es es' ->
  GetConformedPsddDecisionNode m (map e_prime es) (map e_sub es) (map e_param es) fl =
  GetConformedPsddDecisionNode m (map e_prime es') (map e_sub es') (map e_param es') fl.
Proof.
  intros HV NE D ND PM. rewrite (conformed_direct m p l r es fl); auto. rewrite (conformed_direct m p l r es' fl); auto.
  - rewrite (sort_perm_eq es es'); auto.
  - intros ->. apply NE. apply Permutation_sym, Permutation_nil in PM. auto.
  - eapply Permutation_Forall; eauto.
Qed.

(** ** Asking again *)
Context (pg : P -> Prop) (HO : pord P pg) (Hr : forall a : P, peq a a = true) (Hi : forall a : P, plt a a = false).
(** The live nodes have comparable parameters. *)
Definition live_good (m : mgr) : Prop := forall j b, In j (m_live m) -> nth_error (m_heap m) j = Some b -> node_good pg b.
Lemma intern_again (m : mgr) nd i m1 ops m2 : Wf m -> node_ok (m_vt m) (m_heap m) (length (m_heap m)) nd ->
  GetUniqueNode m nd = (i, m1) -> runs m1 ops = Ok m2 -> In i (m_live m2) -> node_good pg nd ->
  (forall j b, In j (m_live m2) -> nth_error (m_heap m2) j = Some b -> same_slot (m_vt m) nd b = true -> node_good pg b) ->
  GetUniqueNode m2 nd = (i, m2).
Proof.
  intros W NO E R L G LG.
  destruct (unique_wf Hr Hi m nd i m1 W NO E) as (W1 & X & L1 & _ & nd' & E1 & V & F & S & Q).
  destruct (runs_wf Hr Hi ops m1 m2 W1 R) as (W2 & V2 & l & H2).
  assert (nth_error (m_heap m2) i = Some nd') as E2 by (apply (history_immutable Hr Hi m1 ops m2 W1 R); auto).
  assert (m_vt m2 = m_vt m) as EV by (rewrite V2; apply (me_vt _ _ _ X)).
  apply (unique_again pg HO m2 nd i nd'); auto.
  - intros j b Hj Ej Sj. rewrite EV in Sj. eauto.
  - apply (equiv_node_eq pg HO); auto. eapply LG; eauto.
Qed.
Theorem literal_again (m : mgr) l fl i m1 ops m2 : Wf m -> GetPsddLiteralNode m l fl = Ok (i, m1) -> runs m1 ops = Ok m2 ->
  In i (m_live m2) -> GetPsddLiteralNode m2 l fl = Ok (i, m2).
Proof.
  intros W E R L. destruct (literal_wf Hr Hi m l fl i m1 W E) as (W1 & X & _ & _).
  destruct (runs_wf Hr Hi ops m1 m2 W1 R) as (W2 & V2 & _).
  unfold GetPsddLiteralNode in *. rewrite V2, (me_vt _ _ _ X).
  pose proof (leaf_path_spec (m_vt m) (Z.abs_N l)) as S. destruct (leaf_path (m_vt m) (Z.abs_N l)) as [p|]; [|discriminate].
  f_equal. injection E as E. apply (intern_again m _ i m1 ops m2); auto.
  - exact Logic.I.
  - intros j b _ _ SS. unfold same_slot in SS. simpl in SS. apply andb_true_iff in SS as [_ SS]. unfold node_good.
    destruct (n_body b); auto; discriminate.
Qed.
Theorem top_again (m : mgr) v fl pt pf i m1 ops m2 : Wf m -> GetPsddTopNode m v fl pt pf = Ok (i, m1) -> runs m1 ops = Ok m2 ->
  In i (m_live m2) -> live_good m2 -> pg pt -> GetPsddTopNode m2 v fl pt pf = Ok (i, m2).
Proof.
  intros W E R L LG G. destruct (top_wf Hr Hi m v fl pt pf i m1 W E) as (W1 & X & _ & _).
  destruct (runs_wf Hr Hi ops m1 m2 W1 R) as (W2 & V2 & _).
  unfold GetPsddTopNode in *. rewrite V2, (me_vt _ _ _ X).
  pose proof (leaf_path_spec (m_vt m) v) as S. destruct (leaf_path (m_vt m) v) as [p|]; [|discriminate].
  f_equal. injection E as E. apply (intern_again m _ i m1 ops m2); auto. intros; eauto.
Qed.
Theorem dec_again (m : mgr) p l r es fl i m1 ops m2 : Wf m -> subtree (m_vt m) p = Some (VNode l r) -> es <> [] -> direct m p es ->
  GetConformedPsddDecisionNode m (map e_prime es) (map e_sub es) (map e_param es) fl = Ok (i, m1) -> runs m1 ops = Ok m2 ->
  In i (m_live m2) -> live_good m2 -> Forall (fun e => pg (e_param e)) es ->
  GetConformedPsddDecisionNode m2 (map e_prime es) (map e_sub es) (map e_param es) fl = Ok (i, m2).
Proof.
  intros W HV NE D E R L LG G. rewrite (conformed_direct m p l r es fl) in E by auto. injection E as E.
  assert (NO : node_ok (m_vt m) (m_heap m) (length (m_heap m)) (MkN p fl (BDec (sort_elems es)))).
  { simpl. split; [|split; eauto].
    - intros Z. apply NE. pose proof (sort_elems_perm es) as PS. rewrite Z in PS. apply Permutation_nil in PS. auto.
    - apply Forall_forall. intros e He. apply (Permutation_in _ (sort_elems_perm es)) in He.
      unfold direct in D. rewrite Forall_forall in D. destruct (D e He) as [A B]. repeat split; auto; eapply vt_of_lt; eauto. }
  destruct (unique_wf Hr Hi m _ i m1 W NO E) as (W1 & X & _).
  destruct (runs_wf Hr Hi ops m1 m2 W1 R) as (W2 & V2 & h & H2).
  rewrite (conformed_direct m2 p l r es fl).
  - f_equal. apply (intern_again m _ i m1 ops m2); auto; [|intros; eauto]. simpl. eapply Permutation_Forall; [apply Permutation_sym, sort_elems_perm|auto].
  - rewrite V2, (me_vt _ _ _ X). auto.
  - auto.
  - unfold direct in *. eapply Forall_impl; [|exact D]. simpl. intros e [A B]. rewrite H2.
    split; apply vt_of_app; eapply mext_vt; eauto.
Qed.
End Canon.
