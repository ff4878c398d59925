(** A network and a file for which the stored parameters are far apart (C92). *)
From Coq Require Import Ascii String Reals Lra Lia Permutation Sorting.
From Verif Require Import Base Param ParamProofs Vtree VtreeProofs Spec SpecProofs Heap Manager HeapProofs SerProofs RepProofs LoadProofs OrderProofs MulProofs ReplayProofs ManagerExamples
  TreeProofs Query QueryProofs MpeProofs SampleProofs QueryExamples Sdd SddProofs Text IO IOProofs Cnf CnfProofs RefLib InferProofs Pgm PgmProofs PgmNet PgmExamples Uai UaiProofs VtreeGen JointreeProofs Compiler CompilerProofs CompilerExamples
  TransferProofs TransferOps TransferCode TransferNet NearCertain NearKept NetCode ApproxMpe QueryCode ProgCode.
Local Open Scope R_scope.
Local Notation two := (VNode (Leaf 1) (Leaf 2)).

Definition kp_rd (w : text) : option Lexact :=
  match w with
  | [c] => if Ascii.eqb c "1" then Some (cl 1) else if Ascii.eqb c "2" then Some (cl 2) else if Ascii.eqb c "3" then Some (cl 3) else None
  | _ => None
  end.
Definition kp_show (a : Lexact) : text := str "0".
Definition kp_scs := [str "1 1"; str "1 0"].
Definition kp_tbs := [[str "2 2 1"]; [str "2 3 1"]].
Definition kp_scopes : list (list N) := [[2%N]; [1%N]].
Definition kp_tables : list (list Lexact) := [[cl 2; cl 1]; [cl 3; cl 1]].
Definition kp_lines := str "MARKOV" :: str "2" :: str "2 2" :: str "2" :: kp_scs ++ concat kp_tbs.
Definition kp_file : text := unlines kp_lines.
Lemma kp_text : uai_text kp_rd (str "MARKOV") (str "2") (str "2 2") (str "2") kp_scs kp_tbs 1 2 kp_scopes kp_tables.
Proof.
  split; try reflexivity.
  - unfold kp_scs, kp_scopes. apply Forall2_cons; [|apply Forall2_cons; [|apply Forall2_nil]].
    + exists (str "1"), 1%Z, [str "1"]. split; [reflexivity|]. split; [reflexivity|]. apply Forall2_cons; [|apply Forall2_nil]; repeat split; lia.
    + exists (str "1"), 1%Z, [str "0"]. split; [reflexivity|]. split; [reflexivity|]. apply Forall2_cons; [|apply Forall2_nil]; repeat split; lia.
  - unfold kp_tbs, kp_tables. apply Forall2_cons; [|apply Forall2_cons; [|apply Forall2_nil]].
    + apply (tl_table kp_rd (str "2 2 1") [] (str "2") [str "2"; str "1"] 2 [cl 2; cl 1] []); try reflexivity; try (unfold max_entries; simpl; lia); [|apply el_done].
      apply Forall2_cons; [reflexivity|apply Forall2_cons; [reflexivity|apply Forall2_nil]].
    + apply (tl_table kp_rd (str "2 3 1") [] (str "2") [str "3"; str "1"] 2 [cl 3; cl 1] []); try reflexivity; try (unfold max_entries; simpl; lia); [|apply el_done].
      apply Forall2_cons; [reflexivity|apply Forall2_cons; [reflexivity|apply Forall2_nil]].
Qed.
Lemma kp_feeds : feeds kp_lines (kp_file, true).
Proof.
  apply feeds_all_unfold, feeds_all_unlines. apply Forall_forall. intros l Hl H. simpl in Hl. repeat (destruct Hl as [<-|Hl]; [simpl in H; intuition discriminate|]). contradiction.
Qed.
Lemma kp_externals : externals_ok ex_externals (N.to_nat 2) kp_scopes.
Proof.
  split; cbn [ex_externals x_begin x_ordering x_decomposition x_sets x_part x_ords x_srt].
  - intros p [|[v l] g] H; [contradiction|left; reflexivity].
  - apply Permutation_refl.
  - apply single_bag. unfold kp_scopes. repeat apply Forall_cons; [| |apply Forall_nil]; intros v; simpl; intuition.
  - intros. apply Permutation_refl.
  - intros p fs H. exists 0%nat, 1%nat. repeat split; auto; lia.
  - intros. apply Permutation_refl.
  - exact isort_sorts.
Qed.
Lemma kp_plain : Forall (plain_factor (N.to_nat 2)) kept_net.
Proof.
  unfold kept_net. repeat apply Forall_cons; [| |apply Forall_nil]; split; cbn [f_scope f_table].
  - repeat constructor; simpl; intuition discriminate.
  - discriminate.
  - intros v; simpl; intuition.
  - simpl; lia.
  - reflexivity.
  - repeat constructor; simpl; intuition discriminate.
  - discriminate.
  - intros v; simpl; intuition.
  - simpl; lia.
  - reflexivity.
Qed.
Lemma kp_doubles : Forall (Forall double_entry) kp_tables.
Proof. pose proof kept_entries as K. inversion K as [|? ? K1 K2]; subst. inversion K2 as [|? ? K3 _]; subst. repeat (apply Forall_cons; auto). Qed.
Lemma kp_nonzero : exists y, network_value cval (map (mapf code_of) kept_net) y <> 0.
Proof. exists (fun _ => true). rewrite code_value. unfold network_value, factor_value, table_value, table_index, kept_net. simpl. rewrite !exp_ln by lra. lra. Qed.
Lemma kp_method : method_ok (VtreeFile two) kp_scopes.
Proof.
  split; [|split].
  - simpl. repeat constructor; simpl; intuition discriminate.
  - simpl. intuition subst; discriminate.
  - unfold kp_scopes. repeat apply Forall_cons; [| |apply Forall_nil]; (split; [intros v; simpl; intuition|]).
    + simpl. left. split; auto. intuition subst; discriminate.
    + simpl. right. left. split; auto. intuition subst; discriminate.
Qed.
(** The run with exact arithmetic keeps its parameters apart *)
Lemma kp_stored ud content size z m : uai_compiler ex_externals kp_rd kp_show ud 9 (VtreeFile two) (Some kp_file) = Ok (content, size, z, m) -> stored_apart (m_heap m).
Proof.
  intros E. unfold uai_compiler in E. rewrite (read_uai kp_rd _ _ _ _ _ _ _ _ _ _ kp_file 9 fresh_uai kp_text kp_feeds) in E by (simpl; lia). cbn [bind] in E.
  bk E as t Et. injection Et as <-. bk E as m0 E0. unfold GetPsddManagerFromVtree in E0. bk E0 as [t' d] Ec. injection E0 as <-. vm_compute in Ec. injection Ec as <- _.
  bk E as [[r z0] m1] En. cbn [fst snd] in E. bk E as i Ei. bk E as [c1 ud1] Ew. bk E as ser Es. injection E as _ _ _ <-.
  destruct (kept_run (x_ords ex_externals) (x_srt ex_externals) 100 isort_sorts) as (z' & m' & K & KH); [discriminate|].
  assert (Ok (r, z0, m1) = Ok (Some 6%nat, z', m')) as Q by (etransitivity; [symmetry; exact En|exact K]).
  injection Q as _ _ ->. rewrite KH. exact kept_stored.
Qed.

(** ** A file with one top *)
Definition q_rd (w : text) : option Lexact := match w with [_; c] => if Ascii.eqb c "1" then Some (cl (1 / 4)) else if Ascii.eqb c "2" then Some (cl (3 / 4)) else None | _ => None end.
Definition q_m : mgr Lexact := MkM (Leaf 1) [MkN [] 0 (@BTop Lexact 1 (cl (3 / 4)) (cl (1 / 4)))] [0%nat].
Definition q_t : ptree := TTop 1 (3 / 4) (1 / 4).
Lemma q_read : ReadPsddFile q_rd pone x_file 0 (new_mgr (Leaf 1)) = Ok (Some 0%nat, q_m).
Proof. apply gen_read; reflexivity. Qed.
Lemma q_tidy : @tidy Lexact lval 0 q_m.
Proof.
  apply (@tidy_runs Lexact lval 0 [OTop 1 0 (cl (3 / 4)) (cl (1 / 4))] (new_mgr (Leaf 1))); [| |reflexivity].
  - constructor. simpl. repeat constructor. intros [].
  - apply Forall_cons; [|apply Forall_nil]. intros _. right. rewrite !cl_val by lra. lra.
Qed.
Lemma q_holds : @file_holds Lexact lval q_rd pone x_file (Leaf 1) q_t.
Proof.
  exists 0%nat, q_m. split; [exact q_read|]. split; [reflexivity|]. split; [apply (@tidy_inv Lexact lval Lexact_exact), q_tidy|]. split; [reflexivity|].
  unfold q_t. replace (3 / 4) with (lval (cl (3 / 4))) by (apply cl_val; lra). replace (1 / 4) with (lval (cl (1 / 4))) by (apply cl_val; lra). eapply Rep_top; reflexivity.
Qed.
Lemma q_good : positive q_t /\ normalized q_t /\ deterministic q_t.
Proof. unfold q_t, positive, normalized, deterministic. simpl. repeat split; lra. Qed.
Lemma q_none mpe mar dflt a m' : Inference q_rd pone ref_lib mpe mar dflt x_file None (Leaf 1) = Ok (a, m') -> m_heap m' = m_heap q_m /\ m_vt m' = Leaf 1.
Proof. intros E. unfold Inference in E. cbn [bind] in E. rewrite q_read in E. cbn [bind] in E. bk E as b Eb. injection E as _ <-. auto. Qed.
Definition q_cnf : text := unlines [str "p cnf 1 1"; str "1 0"].
Lemma q_cnf_read : ReadCnf q_cnf = Ok [[1%Z]].
Proof. vm_compute. reflexivity. Qed.
Section Gen4. Context {P : pops}.
Lemma gen_evidence (a b : P) : exists r, (do x <- Compile ref_lib [[1%Z]] 0 (MkM (Leaf 1) [MkN [] 0 (BTop 1 a b)] [0%nat]) ;; do e <- get (fst x) ;; Multiply (snd x) e 0 0) = Ok (r, MkM (Leaf 1) [MkN [] 0 (BTop 1 a b); MkN [] 0 (BLit 1)] [0; 1]%nat).
Proof.
  cbv -[padd peq plt pmul pdiv pzero pone]. eexists. reflexivity.
Qed.
End Gen4.
Lemma q_some mpe mar dflt a m' : Inference q_rd pone ref_lib mpe mar dflt x_file (Some q_cnf) (Leaf 1) = Ok (a, m') ->
  m_heap m' = m_heap q_m ++ [MkN [] 0 (BLit 1)] /\ m_vt m' = Leaf 1.
Proof.
  intros E. unfold Inference in E. rewrite q_cnf_read in E. cbn [bind] in E. rewrite q_read in E. cbn [bind] in E.
  destruct (@gen_evidence Lexact (cl (3 / 4)) (cl (1 / 4))) as [r G]. bk E as [r2 m2] E2.
  assert (m2 = MkM (Leaf 1) (m_heap q_m ++ [MkN [] 0 (BLit 1)]) [0; 1]%nat) as ->.
  { bk E2 as [ev m3] E3. bk E2 as e E4. cbn [bind get] in E2. bk E2 as [x m4] E5. injection E2 as _ <-.
    unfold q_m in E3. rewrite E3 in G. cbn [bind fst snd] in G. rewrite E4 in G. cbn [bind] in G. rewrite E5 in G. injection G as _ ->. reflexivity. }
  destruct r2 as [i|]; [bk E as b Eb|]; injection E as _ <-; auto.
Qed.
Lemma q_stored h : h = [] \/ h = [MkN [] 0 (BLit 1)] -> stored_apart (m_heap q_m ++ h).
Proof.
  intros Hh. assert (flat_map cparams h = [] /\ flat_map nparams h = []) as [E1 E2] by (destruct Hh as [->| ->]; auto).
  unfold stored_apart. rewrite !flat_map_app, E1, E2, !app_nil_r. split.
  - intros a b Ha Hb. assert (a = cl (3 / 4)) as -> by (cbn in Ha; intuition auto). assert (b = cl (3 / 4)) as -> by (cbn in Hb; intuition auto). left. reflexivity.
  - intros a Ha. assert (a = cl (3 / 4) \/ a = cl (1 / 4)) as [-> | ->] by (cbn in Ha; intuition auto); apply cl_moderate; lra.
Qed.
Lemma q_fit h ls : h = [] \/ h = [MkN [] 0 (BLit 1)] -> products_fit (MkM (Leaf 1) (m_heap q_m ++ h) ls).
Proof.
  intros Hh. assert (flat_map nparams h = []) as E2 by (destruct Hh as [->| ->]; auto). exists 4. split; [lra|]. split.
  - cbn [m_heap]. rewrite flat_map_app, E2, app_nil_r. intros a Ha. right.
    assert (forall r, 1 / 4 <= r < 1 -> Rabs (ln (lval (cl r))) <= 4) as K.
    { intros r Hr. rewrite cl_val by lra. rewrite Rabs_left by (rewrite <- ln_1; apply ln_increasing; lra).
      assert (- ln r = ln (/ r)) as -> by (rewrite ln_Rinv; lra). apply Rlt_le. apply exp_lt_inv. rewrite exp_ln by (apply Rinv_0_lt_compat; lra).
      assert (/ r <= 4) by (rewrite <- (Rinv_inv 4); apply Rinv_le_contravar; lra). pose proof (exp_ineq1 4). lra. }
    assert (a = cl (3 / 4) \/ a = cl (1 / 4)) as [-> | ->] by (cbn in Ha; intuition auto); apply K; lra.
  - cbn [m_vt vsize]. simpl INR. apply (Rlt_trans _ (IZR 80000001)); [simpl; lra|]. apply IZR_lt. reflexivity.
Qed.
