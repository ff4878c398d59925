(** The program uai_compiler and networks whose product is zero. *)
From Coq Require Import Ascii String Reals Lra Sorting.
From Verif Require Import Base Param ParamProofs Vtree VtreeProofs Spec SpecProofs Heap Manager HeapProofs HeapExamples SerProofs RepProofs LoadProofs MulProofs
  TreeProofs QueryExamples Sdd SddProofs Text IO IOProofs Cnf CnfProofs CnfExamples InferProofs Pgm PgmLayout PgmProofs PgmNet PgmExamples Uai UaiProofs UaiExamples VtreeGen VtreeGenProofs
  JointreeProofs HyperProofs Compiler CompilerProofs CompilerExamples PgmZero.
Local Open Scope R_scope.

Theorem uai_compiler_zero P val (HP : pexact P val) x rdu (show : P -> text) ud fuel method l1 l2 l3 l4 scs tbs ty nv scopes tables s :
  uai_text rdu l1 l2 l3 l4 scs tbs ty nv scopes tables -> feeds (l1 :: l2 :: l3 :: l4 :: scs ++ concat tbs) (s, true) -> (length (concat tbs) <= fuel)%nat ->
  externals_ok x (N.to_nat nv) scopes -> method_ok method scopes -> scopes <> [] ->
  let fs := map (fun y => MkF (fst y) (snd y)) (combine scopes tables) in
  Forall (plain_factor (N.to_nat nv)) fs -> (forall y, network_value val fs y = 0) ->
  uai_compiler x rdu show ud fuel method (Some s) = UB.
Proof.
  intros UT FD HF X MO NE fs PF Z0. pose proof (ut_len _ _ _ _ _ _ _ _ _ _ _ UT) as LT.
  assert (map f_scope fs = scopes) as ES.
  { unfold fs. rewrite map_map. cbn [f_scope]. clear -LT. revert tables LT. induction scopes as [|S l IH]; intros [|T r] LT; simpl in *; try discriminate; auto. f_equal. apply IH. lia. }
  assert (length fs = length scopes) as LF by (rewrite <- ES, map_length; auto).
  unfold uai_compiler. rewrite (read_uai rdu l1 l2 l3 l4 scs tbs ty nv scopes tables s fuel fresh_uai UT FD HF). cbn [bind].
  set (u := {| u_vars := nv; u_factors := _; u_type := ty; u_scopes := _; u_params := _ |}).
  assert (u_scopes u = scopes) as EU by reflexivity.
  assert (network_of u = fs) as EN by reflexivity.
  destruct (make_vtree_spec x method u) as (vt & -> & MV & ND & NZL & RL).
  - rewrite EU. exact X.
  - rewrite EU. exact MO.
  - rewrite EU. exact NE.
  - rewrite EU, <- ES. apply Forall_map. eapply Forall_impl; [|exact PF]. intros F [A B C D E]. auto.
  - cbn [bind]. rewrite manager_from_vtree. cbn [bind]. rewrite EN.
    assert (Forall (good_factor vt) fs) as GF.
    { rewrite Forall_forall in *. intros F HFs. destruct (PF F HFs) as [A B C D E]. rewrite EU in RL.
      destruct (RL (f_scope F)) as [R1 R2]; [rewrite <- ES; apply in_map; auto|]. split; auto. }
    pose proof (@new_mgr_inv P val vt ND) as I0.
    assert (fs <> []) as NF by (intros Z; rewrite Z in LF; destruct scopes; simpl in LF; congruence).
    destruct (network_dc_zero HP (x_ords x) (x_srt x) 100 fs (new_mgr vt) (xo_ords _ _ _ X) (xo_srt _ _ _ X) I0 NZL GF NF) as [E|(z & m & E & _)]; auto;
      [discriminate| |]; rewrite E; reflexivity.
Qed.

(** The second factor forbids what the first one demands of variable 2. *)
Definition zero_tbs := [[str "4 0 100 0 100"]; [str "2 100 0"]].
Definition zero_file : text := unlines (uai_l1 :: uai_l2 :: uai_l3 :: uai_l2 :: uai_scs ++ concat zero_tbs).
Definition zero_tables : list (list Qex) := [[pct 0; pct 100; pct 0; pct 100]; [pct 100; pct 0]].
Definition zero_fs : network Qex := map (fun y => MkF (fst y) (snd y)) (combine uai_scopes zero_tables).
Lemma zero_text : @uai_text Qex rd_pct uai_l1 uai_l2 uai_l3 uai_l2 uai_scs zero_tbs 1 2 uai_scopes zero_tables.
Proof.
  destruct uai_ex_text as [A B C D E F]. split; try assumption; try reflexivity.
  unfold zero_tbs, zero_tables. apply Forall2_cons; [|apply Forall2_cons; [|apply Forall2_nil]].
  - apply (tl_table rd_pct (str "4 0 100 0 100") [] (str "4") [str "0"; str "100"; str "0"; str "100"] 4 [pct 0; pct 100; pct 0; pct 100] []); try reflexivity; try (unfold max_entries; simpl; lia); [|apply el_done].
    repeat (apply Forall2_cons; [reflexivity|]). apply Forall2_nil.
  - apply (tl_table rd_pct (str "2 100 0") [] (str "2") [str "100"; str "0"] 2 [pct 100; pct 0] []); try reflexivity; try (unfold max_entries; simpl; lia); [|apply el_done].
    repeat (apply Forall2_cons; [reflexivity|]). apply Forall2_nil.
Qed.
Lemma zero_feeds : feeds (uai_l1 :: uai_l2 :: uai_l3 :: uai_l2 :: uai_scs ++ concat zero_tbs) (zero_file, true).
Proof.
  apply feeds_all_unfold, feeds_all_unlines. apply Forall_forall. intros l Hl H. simpl in Hl. repeat (destruct Hl as [<-|Hl]; [simpl in H; intuition discriminate|]). contradiction.
Qed.
Lemma zero_value y : @network_value Qex qval zero_fs y = 0.
Proof. unfold network_value, factor_value, table_value, table_index, zero_fs. simpl. destruct (y 1%N), (y 2%N); simpl; unfold qval; simpl; lra. Qed.
Lemma zero_nonzero : Forall (@nonzero Qex qval) zero_fs.
Proof.
  repeat apply Forall_cons; try apply Forall_nil; [exists (fun _ => true)|exists (fun _ => false)];
    unfold factor_value, table_value, table_index; simpl; unfold qval; simpl; lra.
Qed.
Definition zero_run (method : vmethod) := @uai_compiler Qex ex_externals rd_pct show_frac (fun _ => 0%N) 9 method (Some zero_file).
Lemma zero_runs method : In method [Hyper; Jointree; MinFill; VtreeFile (VNode (Leaf 1) (Leaf 2))%N] -> zero_run method = UB.
Proof. intros [<-|[<-|[<-|[<-|[]]]]]; vm_compute; reflexivity. Qed.
