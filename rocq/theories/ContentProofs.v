(** The content of nodes that were asked for, with the comparison of the code. *)
From Coq Require Import Reals Lra.
From Verif Require Import Base Param ParamProofs Vtree VtreeProofs Heap Manager HeapProofs SerProofs RepProofs OrderProofs CanonProofs HeapExamples Query QueryExamples.
Local Open Scope R_scope.

(** The same number up to the tolerance of the comparison; zero only equals zero *)
Definition code_near (a b : Lcode) : Prop :=
  (cval a = 0 /\ cval b = 0) \/ (0 < cval a /\ 0 < cval b /\ Rabs (ln (cval a) - ln (cval b)) < 2 / 10000000).
Definition code_elem (x y : elem Lcode) : Prop := e_prime x = e_prime y /\ e_sub x = e_sub y /\ code_near (e_param x) (e_param y).
Lemma good_denotes (a : Lcode) : cgood a -> denotes a (cval a).
Proof.
  intros [_ R]. unfold in_range, cval in *. destruct (par a) eqn:E; try contradiction; [apply den_pos|apply den_zero]; auto.
Qed.
Lemma good_near (a b : Lcode) : cgood a -> cgood b -> peq a b = true -> code_near a b.
Proof.
  intros A B E. apply (p_eq_tolerance a b (cval a) (cval b)); auto using good_denotes.
Qed.
Lemma elems_near : forall l l' : list (elem Lcode), Forall (fun e => cgood (e_param e)) l -> Forall (fun e => cgood (e_param e)) l' -> elems_eq l l' = true -> Forall2 code_elem l l'.
Proof.
  induction l as [|x l IH]; intros [|y l'] F F' E; simpl in E; try discriminate; [constructor|].
  rewrite !andb_true_iff, !Nat.eqb_eq in E. destruct E as [[[E1 E2] E3] E4]. constructor.
  - split; auto. split; auto. apply good_near; auto; [apply (Forall_inv F)|apply (Forall_inv F')].
  - apply IH; auto; [apply (Forall_inv_tail F)|apply (Forall_inv_tail F')].
Qed.
(** A node that was asked for is a node there was, or a new one with exactly the content asked for. *)
Definition found_or_new (m m' : mgr Lcode) (i : nat) (nd : node Lcode) : Prop :=
  (m' = m /\ In i (m_live m)) \/ (i = length (m_heap m) /\ m_heap m' = m_heap m ++ [nd] /\ m_live m' = m_live m ++ [i]).
Lemma unique_content (m : mgr Lcode) nd i m' : Wf m -> live_good cgood m -> node_ok (m_vt m) (m_heap m) (length (m_heap m)) nd -> node_good cgood nd ->
  GetUniqueNode m nd = (i, m') -> live_good cgood m' /\ found_or_new m m' i nd /\
    exists nd', nth_error (m_heap m') i = Some nd' /\ n_vt nd' = n_vt nd /\ n_flag nd' = n_flag nd /\ node_good cgood nd' /\ node_eq nd nd' = true.
Proof.
  intros W LG NO G E. destruct (unique_spec code_refl code_irrefl m nd i m' W NO E) as (W' & X & L & _ & D).
  destruct (unique_wf code_refl code_irrefl m nd i m' W NO E) as (_ & _ & _ & _ & nd' & E1 & V & F & _ & Q).
  assert (live_good cgood m') as LG'.
  { destruct D as [[-> _]|(Ei & Eh & El)]; auto. intros j b Hj Ej. rewrite El in Hj. rewrite Eh in Ej. apply in_app_iff in Hj as [Hj|[<-|[]]].
    - apply (LG j); auto. rewrite nth_error_app1 in Ej; auto. apply (wf_range _ W); auto.
    - rewrite Ei, nth_error_app2, Nat.sub_diag in Ej by lia. injection Ej as <-. auto. }
  split; auto. split; auto. exists nd'. assert (node_good cgood nd') as G' by (apply (LG' i); auto). repeat split; auto.
  apply (equiv_node_eq cgood pord_code); auto.
Qed.
Theorem decision_content_code (m : mgr Lcode) p l r es fl : Wf m -> live_good cgood m -> subtree (m_vt m) p = Some (VNode l r) -> es <> [] -> direct m p es ->
  Forall (fun e => cgood (e_param e)) es ->
  exists i m' nd es' es2, GetConformedPsddDecisionNode m (map e_prime es) (map e_sub es) (map e_param es) fl = Ok (i, m') /\ live_good cgood m' /\
    nth_error (m_heap m') i = Some nd /\ n_flag nd = fl /\ n_vt nd = p /\ n_body nd = BDec es' /\
    Permutation es es2 /\ Forall2 code_elem es2 es' /\ found_or_new m m' i (MkN p fl (BDec es2)).
Proof.
  intros W LG HV NE D G. rewrite (conformed_direct m p l r es fl) by auto.
  destruct (GetUniqueNode m (MkN p fl (BDec (sort_elems es)))) as [i m'] eqn:E.
  assert (NO : node_ok (m_vt m) (m_heap m) (length (m_heap m)) (MkN p fl (BDec (sort_elems es)))).
  { simpl. split; [|split; eauto].
    - intros Z. apply NE. pose proof (sort_elems_perm es) as PS. rewrite Z in PS. apply Permutation_nil in PS. auto.
    - apply Forall_forall. intros e He. apply (Permutation_in _ (sort_elems_perm es)) in He.
      unfold direct in D. rewrite Forall_forall in D. destruct (D e He) as [A B]. repeat split; auto; eapply vt_of_lt; eauto. }
  assert (G2 : Forall (fun e => cgood (e_param e)) (sort_elems es)) by (eapply Permutation_Forall; [apply Permutation_sym, sort_elems_perm|auto]).
  destruct (unique_content m _ i m' W LG NO G2 E) as (LG' & FN & nd & E1 & V & F & G' & Q).
  unfold node_eq in Q. unfold node_good in G'. cbn [n_body] in Q. destruct (n_body nd) as [| |es'] eqn:Eb; try discriminate. apply andb_true_iff in Q as [_ Q].
  exists i, m', nd, es', (sort_elems es). split; auto. split; auto. split; auto. split; auto. split; auto. split; auto.
  split; [apply Permutation_sym, sort_elems_perm|]. split; auto. apply elems_near; auto.
Qed.
Theorem top_content_code (m : mgr Lcode) fl v pt pf p : Wf m -> live_good cgood m -> subtree (m_vt m) p = Some (Leaf v) -> cgood pt ->
  exists i m' nd pt' pf', GetPsddTopNode m v fl pt pf = Ok (i, m') /\ live_good cgood m' /\
    nth_error (m_heap m') i = Some nd /\ n_flag nd = fl /\ n_vt nd = p /\ n_body nd = BTop v pt' pf' /\ code_near pt pt' /\
    found_or_new m m' i (MkN p fl (BTop v pt pf)).
Proof.
  intros W LG S G. unfold GetPsddTopNode. rewrite (leaf_path_unique (m_vt m) p v (wf_leaves _ W) S).
  destruct (GetUniqueNode m (MkN p fl (BTop v pt pf))) as [i m'] eqn:E.
  destruct (unique_content m (MkN p fl (BTop v pt pf)) i m' W LG S G E) as (LG' & FN & nd & E1 & V & F & G' & Q).
  unfold node_eq in Q. unfold node_good in G'. cbn [n_body] in Q. destruct (n_body nd) as [|v' pt' pf'|] eqn:Eb; try discriminate.
  rewrite !andb_true_iff in Q. destruct Q as [[Q1 _] Q]. apply N.eqb_eq in Q1. subst v'.
  exists i, m', nd, pt', pf'. repeat (split; [solve [auto]|]). split; auto. apply good_near; auto.
Qed.
(** A manager with the literals 1 and 2, and elements to ask for *)
Definition lits_vt : vtree := VNode (Leaf 1) (Leaf 2).
Definition lits_m : mgr Lcode := MkM lits_vt [MkN [false] 0 (BLit 1); MkN [true] 0 (BLit 2)] [0; 1]%nat.
Definition lits_es : list (elem Lcode) := [MkE 0 1 (lc (Fin (-1)))].
Lemma lits_runs : runs (new_mgr lits_vt) [OLit 1 0; OLit 2 0] = Ok lits_m.
Proof. reflexivity. Qed.
Lemma lits_ok : Wf lits_m /\ live_good cgood lits_m /\ direct lits_m [] lits_es /\ Forall (fun e => cgood (e_param e)) lits_es /\ subtree (m_vt lits_m) [] = Some lits_vt.
Proof.
  split; [|split; [|split; [|split]]].
  - refine (proj1 (runs_wf code_refl code_irrefl _ (new_mgr lits_vt) _ (wf_new _ _) lits_runs)). simpl. repeat constructor; simpl; intuition discriminate.
  - intros j b [<-|[<-|[]]] E; injection E as <-; exact Logic.I.
  - constructor; [|constructor]. split; reflexivity.
  - constructor; [|constructor]. unfold cgood, good, fresh, in_range. simpl. split; auto. rewrite Rabs_left; lra.
  - reflexivity.
Qed.
