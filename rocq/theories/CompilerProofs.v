(** Proofs about the program uai_compiler. *)
From Coq Require Import Ascii String Reals Lra Sorting.
From Verif Require Import Base Param Vtree VtreeProofs Spec SpecProofs Heap Manager HeapProofs SerProofs RepProofs LoadProofs MulProofs
  TreeProofs Sdd SddProofs Text IO IOProofs Cnf CnfProofs InferProofs Pgm PgmLayout PgmProofs PgmNet PgmExamples Uai UaiProofs VtreeGen VtreeGenProofs JointreeProofs HyperProofs Compiler.
Local Open Scope R_scope.

(** What the libraries promise for a network of n variables with these scopes *)
Record externals_ok (x : externals) (n : nat) (scopes : list (list N)) : Prop := {
  xo_begin : forall p g, g <> [] -> In (x_begin x p g) (keys g);
  xo_ordering : Permutation (x_ordering x n scopes) (range n);
  xo_decomposition : tree_decomposition n scopes (x_decomposition x n scopes);
  xo_sets : forall p k l, Permutation (x_sets x p k l) l;
  xo_part : two_sided (x_part x);
  xo_ords : forall a b c, Permutation (x_ords x a b c) c;
  xo_srt : sorts (x_srt x);
}.
(** The vtree the method stands for *)
Definition method_vars (method : vmethod) (n : nat) (scopes : list (list N)) (vt : vtree) : Prop :=
  match method with
  | Jointree | MinFill => Permutation (leaves vt) (range n)
  | Hyper => Permutation (leaves vt) (distinct (concat scopes))
  | VtreeFile t => vt = t
  end.
(** The vtrees made need nothing; a given vtree must have the variables and suit the factors *)
Definition method_ok (method : vmethod) (scopes : list (list N)) : Prop :=
  match method with
  | VtreeFile t => NoDup (leaves t) /\ (forall v, In v (leaves t) -> v <> 0%N) /\ Forall (fun S => incl S (leaves t) /\ right_linear S t) scopes
  | _ => True
  end.
(** The factors the compiler can handle *)
Record plain_factor {P : pops} (n : nat) (F : factor P) : Prop := {
  pf_nodup : NoDup (f_scope F);
  pf_nonempty : f_scope F <> [];
  pf_vars : incl (f_scope F) (range n);
  pf_len : (length (f_scope F) <= 31)%nat;
  pf_table : N.of_nat (length (f_table F)) = (2 ^ N.of_nat (length (f_scope F)))%N;
}.

Section Compiler.
Context {P : pops} (val : P -> R) (HP : pexact P val).
Lemma make_vtree_spec x method (u : uai P) : externals_ok x (N.to_nat (u_vars u)) (u_scopes u) -> method_ok method (u_scopes u) -> u_scopes u <> [] ->
  Forall (fun S => S <> [] /\ incl S (range (N.to_nat (u_vars u)))) (u_scopes u) ->
  exists vt, make_vtree x method u = Ok vt /\ method_vars method (N.to_nat (u_vars u)) (u_scopes u) vt /\ NoDup (leaves vt) /\
    (forall v, In v (leaves vt) -> v <> 0%N) /\ Forall (fun S => incl S (leaves vt) /\ right_linear S vt) (u_scopes u).
Proof.
  intros X MO NE F. set (n := N.to_nat (u_vars u)) in *. set (scopes := u_scopes u) in *.
  assert (exists S v, In S scopes /\ In v S /\ In v (range n)) as (S0 & v0 & H0 & H1 & H2).
  { destruct scopes as [|S l]; [congruence|]. apply Forall_cons_iff in F as [[F1 F2] _]. destruct S as [|v S]; [congruence|].
    exists (v :: S), v. simpl. repeat split; auto. apply F2. simpl; auto. }
  assert (n <> 0)%nat as N0. { intros Z. rewrite Z in H2. destruct H2. }
  assert (forall v, In v (range n) -> v <> 0%N) as NZ. { intros v Hv. apply range_In in Hv. lia. }
  assert (Forall (fun S => incl S (range n)) scopes) as FI by (eapply Forall_impl; [|exact F]; intros S [_ H]; exact H).
  assert (forall vt, Permutation (leaves vt) (range n) -> Forall (fun S => right_linear S vt) scopes ->
    NoDup (leaves vt) /\ (forall v, In v (leaves vt) -> v <> 0%N) /\ Forall (fun S => incl S (leaves vt) /\ right_linear S vt) scopes) as FIN.
  { intros vt PV RL. split; [apply (Permutation_NoDup (Permutation_sym PV)), range_nodup|]. split.
    - intros v Hv. apply NZ. apply (Permutation_in v PV Hv).
    - rewrite Forall_forall in *. intros S HS. split; auto. intros v Hv. apply (Permutation_in v (Permutation_sym PV)). apply (FI S HS v Hv). }
  destruct method as [| | |t]; unfold make_vtree, method_vars; fold n; fold scopes.
  - assert (concat scopes <> []) as NC.
    { intros Z. assert (In v0 (concat scopes)) as H by (apply In_concat; eauto). rewrite Z in H. destruct H. }
    destruct (hyper_full (x_sets x) (x_part x) scopes (S (length scopes)) (xo_sets _ _ _ X) NC) as (G & _ & _ & T).
    destruct (T (xo_part _ _ _ X)) as [t E]; [lia|]. destruct (G t E) as [PV RL]. exists t. split; auto. split; auto.
    split; [apply (Permutation_NoDup (Permutation_sym PV)), NoDup_distinct|]. split.
    + intros v Hv. apply (Permutation_in v PV), In_distinct, In_concat in Hv as (S & HS & Hv). apply NZ. rewrite Forall_forall in FI. apply (FI S HS v Hv).
    + rewrite Forall_forall in *. intros S HS. split; auto. intros v Hv. apply (Permutation_in v (Permutation_sym PV)), In_distinct, In_concat. eauto.
  - destruct (jointree_full n scopes _ (xo_decomposition _ _ _ X) N0) as (t & E & PV & RL). exists t. split; [exact E|]. split; [exact PV|]. apply FIN; auto.
  - destruct (minfill_full (x_begin x) (x_ordering x n scopes) n scopes (xo_begin _ _ _ X) (xo_ordering _ _ _ X) N0 FI) as (t & E & PV & RL).
    exists t. split; [exact E|]. split; [exact PV|]. apply FIN; auto.
  - exists t. split; auto.
Qed.
Lemma manager_from_vtree t : GetPsddManagerFromVtree (P := P) t = Ok (new_mgr t).
Proof. unfold GetPsddManagerFromVtree. destruct (copy_vtree_identical (fun _ => None) [] t) as (d & -> & _). reflexivity. Qed.
Lemma new_mgr_inv t : NoDup (leaves t) -> Inv val 0 (new_mgr t).
Proof.
  intros H. split; [apply wf_new; auto|]. intros i nd v pt pf [].
Qed.
Lemma normalized_tops t : positive t -> normalized t -> tops_T (fun _ => top_ok) t.
Proof.
  induction t as [l|v a b|es IH] using ptree_ind2; intros PO NO; unfold tops_T.
  - simpl. auto.
  - simpl. split; auto. destruct NO as [NO _], PO as [[PO1 PO2] _]. right. auto.
  - apply all_nodes_dec in NO as [_ NO]. apply all_nodes_dec in PO as [_ PO]. apply all_nodes_dec. split; auto.
    rewrite Forall_forall in *. intros e He. destruct (NO e He), (PO e He), (IH e He). split; [apply H3|apply H4]; auto.
Qed.
(** The program and its files *)
Theorem uai_compiler_spec x rdu (show : P -> text) rd log0 ud fuel method l1 l2 l3 l4 scs tbs ty nv scopes tables s :
  uai_text rdu l1 l2 l3 l4 scs tbs ty nv scopes tables -> feeds (l1 :: l2 :: l3 :: l4 :: scs ++ concat tbs) (s, true) -> (length (concat tbs) <= fuel)%nat ->
  externals_ok x (N.to_nat nv) scopes -> method_ok method scopes -> (2 <= length scopes)%nat ->
  let fs := map (fun y => MkF (fst y) (snd y)) (combine scopes tables) in
  Forall (plain_factor (N.to_nat nv)) fs -> (exists y, network_value val fs y <> 0) ->
  (forall a, Forall plain (show a)) -> (forall a, show a <> []) -> (forall a, rd (show a) = Some a) ->
  exists content size z m, uai_compiler x rdu show ud fuel method (Some s) = Ok (content, size, z, m) /\    (exists ls, content = unlines (header ++ (str "psdd" ++ sp (show_N (N.of_nat size))) :: ls) /\ length ls = size) /\
    method_vars method (N.to_nat nv) scopes (m_vt m) /\ 0 < val z /\ (forall y, val z = sum_over (leaves (m_vt m)) (network_value val fs) y) /\    (fits (m_vt m) (m_heap m) -> exists t, file_holds val rd log0 content (m_vt m) t /\ positive t /\ normalized t /\ deterministic t /\       forall y, weight t y * val z = network_value val fs y).
Proof.
  intros UT FD HF X MO L2 fs PF NZ SP SN RD. pose proof (ut_len _ _ _ _ _ _ _ _ _ _ _ UT) as LT.
  assert (map f_scope fs = scopes) as ES.
  { unfold fs. rewrite map_map. cbn [f_scope]. clear -LT. revert tables LT. induction scopes as [|S l IH]; intros [|T r] LT; simpl in *; try discriminate; auto. f_equal. apply IH. lia. }
  assert (length fs = length scopes) as LF by (rewrite <- ES, map_length; auto).
  unfold uai_compiler. rewrite (read_uai rdu l1 l2 l3 l4 scs tbs ty nv scopes tables s fuel fresh_uai UT FD HF). cbn [bind].
  set (u := {| u_vars := nv; u_factors := _; u_type := ty; u_scopes := _; u_params := _ |}).
  assert (u_scopes u = scopes) as EU by reflexivity.
  assert (network_of u = fs) as EN by reflexivity.
  assert (scopes <> []) as NE by (intros Z; rewrite Z in L2; simpl in L2; lia).
  destruct (make_vtree_spec x method u) as (vt & -> & MV & ND & NZL & RL).
  - rewrite EU. exact X.
  - rewrite EU. exact MO.
  - rewrite EU. exact NE.
  - rewrite EU, <- ES. apply Forall_map. eapply Forall_impl; [|exact PF]. intros F [A B C D E]. auto.
  - cbn [bind]. rewrite manager_from_vtree. cbn [bind]. rewrite EN.
    assert (Forall (good_factor vt) fs) as GF.
    { rewrite Forall_forall in *. intros F HFs. destruct (PF F HFs) as [A B C D E]. rewrite EU in RL.
      destruct (RL (f_scope F)) as [R1 R2]; [rewrite <- ES; apply in_map; auto|]. split; auto. }
    pose proof (new_mgr_inv vt ND) as I0.
    assert (fs <> []) as NF by (intros Z; rewrite Z in LF; simpl in LF; lia).
    destruct (@network_dc_full P val HP (x_ords x) (x_srt x) 100 fs (new_mgr vt) (xo_ords _ _ _ X) (xo_srt _ _ _ X) I0 NZL GF NF) as
      (i & z & m & t & -> & I & EV & _ & (V & R & LV & CF & PO & DE) & ZP & W & NT); auto; [discriminate|]. cbn [bind fst snd get].
    specialize (NT ltac:(lia)). cbn [m_vt new_mgr] in EV.
    assert (heap_ok (m_vt m) (m_heap m)) as HO by (apply (wf_heap _ (proj1 I))).
    assert (i < length (m_heap m))%nat as HI by (eapply vt_of_lt; eauto).
    destruct (serialize_root (m_heap m) (m_vt m) i HO HI) as [L SO].
    destruct (write_spec show (m_vt m) (m_heap m) i L SO HO HI ud) as (ud' & E1 & _).
    rewrite E1. cbn [bind]. rewrite (so_eq _ _ _ SO). cbn [bind].
    eexists _, _, z, m. split; [reflexivity|]. split; [eexists; split; [reflexivity|rewrite map_length, rev_length; reflexivity]|]. split; [rewrite EV; exact MV|]. split; auto. split.
    + intros y. rewrite EV. rewrite (sum_over_ext' _ _ (fun y => val z * weight t y)), sum_over_scal.
      * rewrite EV in CF. rewrite (normalized_total vt t y ND CF NT). ring.
      * intros w. rewrite <- W. ring.
    + intros FT. pose proof (new_mgr_inv (m_vt m)) as I1. rewrite EV in I1 at 1. specialize (I1 ND).
      destruct (@write_read P val HP show rd log0 (fun a => a) SP SN (fun _ => top_ok) (fun _ => top_ok_fun) (m_vt m) (m_heap m) ud i [] (m_vt m) t (new_mgr (m_vt m)) 0 [])
        as (content & ud2 & j & m' & t' & E2 & _ & _ & E3 & I' & ME & [V' R'] & SH & _); auto.
      { apply normalized_tops; auto. }
      rewrite E1 in E2. injection E2 as <- _.
      destruct (shuffled_like _ _ SH) as [SW SB SPO _ SDE]. exists t'. split.
      * exists j, m'. split; auto. split; [apply (me_vt _ _ _ ME)|]. split; auto.
      * split; auto. split; [eapply shuffled_normalized; eauto|]. split; auto. intros y. rewrite SW. apply W.
Qed.

(** ** The answers psdd_inference gives on the files *)
Lemma answers_scale vt g h z c mpe mar (a : answer) : 0 < c -> (forall x, h x = g x * c) -> answers_for val vt g z mpe mar a -> answers_for val vt h (z * c) mpe mar a.
Proof.
  intros HC HH. destruct a as [|ma mb]; [auto|]. intros (vs & P1 & P2 & A & B). exists vs. split; auto. split; auto. split.
  - destruct mpe; auto. destruct A as (x & v & E & G & GP & GM). exists x, v. split; auto. split; [rewrite HH, G; ring|].
    split; [rewrite HH; apply Rmult_lt_0_compat; auto|]. intros y. rewrite !HH. apply Rmult_le_compat_r; [lra|auto].
  - destruct mar; auto. destruct B as (f & E & B). exists f. split; auto. intros v Hv. destruct (B v Hv) as [B1 B2]. split; intros x0.
    + rewrite <- Rmult_assoc, (B1 x0), Rmult_comm, <- sum_over_scal. apply sum_over_ext'. intros y. rewrite HH. destruct (y v); ring.
    + rewrite <- Rmult_assoc, (B2 x0), Rmult_comm, <- sum_over_scal. apply sum_over_ext'. intros y. rewrite HH. destruct (y v); ring.
Qed.
Theorem compile_and_infer x rdu (show : P -> text) rd log0 ud fuel method l1 l2 l3 l4 scs tbs ty nv scopes tables s libs (dflt : P * P) :
  uai_text rdu l1 l2 l3 l4 scs tbs ty nv scopes tables -> feeds (l1 :: l2 :: l3 :: l4 :: scs ++ concat tbs) (s, true) -> (length (concat tbs) <= fuel)%nat ->
  externals_ok x (N.to_nat nv) scopes -> method_ok method scopes -> (2 <= length scopes)%nat ->
  let fs := map (fun y => MkF (fst y) (snd y)) (combine scopes tables) in
  Forall (plain_factor (N.to_nat nv)) fs -> (exists y, network_value val fs y <> 0) ->
  (forall a, Forall plain (show a)) -> (forall a, show a <> []) -> (forall a, rd (show a) = Some a) -> libs_ok libs ->
  exists content size z m, uai_compiler x rdu show ud fuel method (Some s) = Ok (content, size, z, m) /\
    (forall y, val z = sum_over (leaves (m_vt m)) (network_value val fs) y) /\
    (fits (m_vt m) (m_heap m) -> forall mpe mar,
      (exists a m', Inference rd log0 libs mpe mar dflt content None (m_vt m) = Ok (a, m') /\
         answers_for val (m_vt m) (network_value val fs) (val z) mpe mar a) /\
      forall cnf cs, ReadCnf cnf = Ok cs -> in_vtree (m_vt m) cs ->
        let g y := if cnf_sat cs y then network_value val fs y else 0 in
        ((exists y, cnf_sat cs y = true) -> (forall y, g y = 0) -> exists m', Inference rd log0 libs mpe mar dflt content (Some cnf) (m_vt m) = Ok (Unsatisfied, m')) /\
        ((exists y, g y <> 0) -> exists a m' ze, Inference rd log0 libs mpe mar dflt content (Some cnf) (m_vt m) = Ok (a, m') /\
           0 < ze /\ (forall y, ze = sum_over (leaves (m_vt m)) g y) /\ answers_for val (m_vt m) g ze mpe mar a)).
Proof.
  intros UT FD HF X MO L2 fs PF NZ SP SN RD LO.
  destruct (uai_compiler_spec x rdu show rd log0 ud fuel method l1 l2 l3 l4 scs tbs ty nv scopes tables s UT FD HF X MO L2 PF NZ SP SN RD) as
    (content & size & z & m & E & _ & MV & ZP & ZS & HH).
  exists content, size, z, m. split; auto. split; auto. intros FT mpe mar. destruct (HH FT) as (t & FH & PO & NO & DE & W). clear HH.
  assert (forall v, In v (leaves (m_vt m)) -> v <> 0%N) as NZV.
  { intros v Hv Z. subst v. destruct method as [| | |t0]; cbn [method_vars method_ok] in MV, MO.
    - apply (Permutation_in _ MV), In_distinct, In_concat in Hv as (S & HS & Hv). apply In_nth_error in HS as [k Hk].
      pose proof (ut_len _ _ _ _ _ _ _ _ _ _ _ UT) as LT. destruct (nth_error tables k) as [T|] eqn:ET.
      2:{ apply nth_error_None in ET. assert (k < length scopes)%nat by (apply nth_error_Some; congruence). lia. }
      assert (In (MkF S T) fs) as HI.
      { unfold fs. apply in_map_iff. exists (S, T). split; auto. clear -Hk ET. revert scopes tables Hk ET.
        induction k as [|k IH]; intros [|S' l] [|T' r] Hk ET; simpl in *; try discriminate; [injection Hk as ->; injection ET as ->; auto|]. right. eapply IH; eauto. }
      rewrite Forall_forall in PF. destruct (PF _ HI) as [_ _ PV _ _]. specialize (PV 0%N Hv). apply range_In in PV. lia.
    - apply (Permutation_in _ MV), range_In in Hv. lia.
    - apply (Permutation_in _ MV), range_In in Hv. lia.
    - rewrite MV in Hv. apply MO in Hv. auto. }
  split.
  - destruct (inference_no_evidence val HP rd log0 libs dflt content (m_vt m) t mpe mar FH PO NO DE) as (a & m' & EI & A).
    exists a, m'. split; auto. replace (val z) with (1 * val z) by ring. apply (answers_scale _ (weight t)); auto.
  - intros cnf cs EC IV g. destruct (inference_evidence val HP rd log0 libs LO dflt content (m_vt m) t mpe mar cnf cs FH PO NO DE NZV EC IV) as (U & S & _).
    assert (forall y, g y = (if cnf_sat cs y then weight t y else 0) * val z) as GW.
    { intros y. unfold g. rewrite <- W. destruct (cnf_sat cs y); ring. }
    split.
    + intros SAT ZERO. apply U; auto. intros y. specialize (ZERO y). rewrite GW in ZERO. apply Rmult_integral in ZERO as [ZERO|ZERO]; [auto|lra].
    + intros [y Hy]. destruct S as (a & m' & ze & EI & ZE & ZS' & A).
      { exists y. rewrite GW in Hy. assert (0 <= (if cnf_sat cs y then weight t y else 0)) as H.
        { destruct (cnf_sat cs y); [|lra]. apply weight_nonneg, positive_nonneg, PO. }
        destruct H as [H|H]; [exact H|]. rewrite <- H in Hy. lra. }
      exists a, m', (ze * val z). split; auto. split; [apply Rmult_lt_0_compat; auto|]. split; [|apply (answers_scale _ (fun x0 => if cnf_sat cs x0 then weight t x0 else 0)); auto].
      intros y0. rewrite (ZS' y0), Rmult_comm, <- sum_over_scal. apply sum_over_ext'. intros w. rewrite GW. ring.
Qed.
End Compiler.
