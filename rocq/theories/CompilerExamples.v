(** A concrete run of uai_compiler. *)
From Coq Require Import Ascii String Reals Lra DecimalN.
From Verif Require Import Base Param ParamProofs Vtree VtreeProofs Spec SpecProofs Heap Manager HeapProofs HeapExamples QueryExamples Text IO IOProofs
  Sdd Cnf CnfProofs RefLib InferProofs CnfExamples Pgm PgmLayout PgmProofs PgmNet PgmExamples Uai UaiProofs UaiExamples VtreeGen VtreeGenProofs JointreeProofs HyperProofs
  Compiler CompilerProofs.
Local Open Scope R_scope.

(** Parameters written as fractions *)
Definition show_frac (a : Qex) : text := show_N (nqn a) ++ "/"%char :: show_N (Npos (nqd a)).
Definition rd_frac (s : text) : option Qex :=
  let (u, r) := take_digits s in
  match r with
  | c :: r' => if Ascii.eqb c "/" then match N.of_uint (fst (take_digits r')) with Npos d => Some (MkQ (N.of_uint u) d) | N0 => None end else None
  | [] => None
  end.
Lemma frac_plain a : Forall plain (show_frac a).
Proof. unfold show_frac. apply Forall_app. split; [apply show_N_plain|]. constructor; [reflexivity|apply show_N_plain]. Qed.
Lemma frac_nonempty a : show_frac a <> [].
Proof. unfold show_frac. destruct (show_N (nqn a)); discriminate. Qed.
Lemma frac_read a : rd_frac (show_frac a) = Some a.
Proof.
  unfold rd_frac, show_frac. unfold show_N at 1. rewrite take_digits_app by reflexivity. cbn [Ascii.eqb Bool.eqb].
  pose proof (take_digits_app (N.to_uint (N.pos (nqd a))) [] Logic.I) as E. rewrite app_nil_r in E. unfold show_N. rewrite E. cbn [fst].
  rewrite !Unsigned.of_to. destruct a; reflexivity.
Qed.

(** The libraries for the network of UaiExamples: f(x1, x2) and f(x2) *)
Definition ex_externals : externals := {|
  x_begin := fun _ g => match g with (v, _) :: _ => v | [] => 0%N end;
  x_ordering := fun n _ => range n;
  x_decomposition := fun n _ => DT (range n) [];
  x_sets := fun _ _ l => l;
  x_part := fun _ _ i => Nat.even i;
  x_ords := id_ord;
  x_srt := isort;
|}.
Lemma single_bag n scopes : Forall (fun S => incl S (range n)) scopes -> tree_decomposition n scopes (DT (range n) []).
Proof.
  intros F. assert (forall p bag, bag_at (DT (range n) []) p = Some bag -> p = [] /\ bag = range n) as B.
  { intros [|i p] bag H; simpl in H; [injection H as <-; auto|destruct i; discriminate]. }
  split.
  - intros p bag H. apply B in H as [_ ->]. apply range_nodup.
  - intros v. split; [intros H; exists [], (range n); auto|]. intros (p & bag & H & I). apply B in H as [_ ->]. auto.
  - eapply Forall_impl; [|exact F]. intros S H. exists [], (range n). auto.
  - intros v p q (b1 & H1 & I1) (b2 & H2 & I2). apply B in H1 as [-> ->]. apply B in H2 as [-> ->]. apply walk_here. exists (range n). auto.
Qed.
Lemma ex_externals_ok : externals_ok ex_externals (N.to_nat 2) uai_scopes.
Proof.
  split; cbn [ex_externals x_begin x_ordering x_decomposition x_sets x_part x_ords x_srt].
  - intros p [|[v l] g] H; [contradiction|left; reflexivity].
  - apply Permutation_refl.
  - apply single_bag. unfold uai_scopes. repeat apply Forall_cons; [| |apply Forall_nil]; intros v; simpl; intuition.
  - intros. apply Permutation_refl.
  - intros p fs H. exists 0%nat, 1%nat. repeat split; auto; lia.
  - intros. apply Permutation_refl.
  - exact isort_sorts.
Qed.
Definition uai_fs : list (factor Qex) := map (fun y => MkF (fst y) (snd y)) (combine uai_scopes uai_tables).
Lemma uai_plain : Forall (plain_factor (N.to_nat 2)) uai_fs.
Proof.
  unfold uai_fs. cbn [uai_scopes uai_tables combine map fst snd]. repeat apply Forall_cons; [| |apply Forall_nil]; split; cbn [f_scope f_table].
  - repeat constructor; simpl; intuition discriminate.
  - discriminate.
  - intros v; simpl; intuition.
  - simpl; lia.
  - reflexivity.
  - repeat constructor; simpl; intuition discriminate.
  - discriminate.
  - intros v; simpl; intuition.
  - simpl; lia.
  - reflexivity.
Qed.
Lemma uai_nonzero : exists y, @network_value Qex qval uai_fs y <> 0.
Proof. exists (fun _ => false). unfold network_value, uai_fs, factor_value, table_value. simpl. unfold qval, pct. simpl. lra. Qed.
(** The three constructions; the partition function is (0.1 + 0.3) 0.5 + (0.2 + 0.4) 0.6 *)
Definition ex_run (method : vmethod) := @uai_compiler Qex ex_externals rd_pct show_frac (fun _ => 0%N) 9 method (Some uai_file).
Lemma ex_run_z : forall method, In method [Hyper; Jointree; MinFill; VtreeFile (VNode (Leaf 1) (Leaf 2))%N] ->
  (do (r, m) <- ex_run method ;; let '(_, size, z) := r in Ok (size, z)) = Ok (5%nat, q 14 25) .
Proof. intros method H. simpl in H. destruct H as [<-|[<-|[<-|[<-|[]]]]]; vm_compute; reflexivity. Qed.
