(** Concrete cases and witnesses for the queries (C17-C23, C31). *)
From Coq Require Import Reals Lra.
From Verif Require Import Base Param ParamProofs Vtree VtreeProofs Spec SpecProofs Heap Manager HeapProofs SerProofs RepProofs
  OrderProofs CanonProofs HeapExamples LoadProofs MulProofs ReplayProofs ManagerExamples TreeProofs Query QueryProofs MpeProofs SampleProofs.
Local Open Scope R_scope.

Lemma ex_m_wf : Wf ex_m.
Proof. destruct ex_wf as (m & E & W). rewrite ex_runs in E. injection E as <-. exact W. Qed.
Lemma ex_at8 : @psdd_at Qex qval ex_m 8 ex_vt ex_t8.
Proof. split; [exact ex_m_wf|]. split; [exact ex_r8|]. exists []. split; reflexivity. Qed.
Definition ex_vt12 := VNode (Leaf 1) (Leaf 2).
Lemma ex_at4 : @psdd_at Qex qval ex_m 4 ex_vt12 ex_t4.
Proof. split; [exact ex_m_wf|]. split; [exact ex_r4|]. exists [false]. split; reflexivity. Qed.
Lemma ex_nonneg : nonneg ex_t8.
Proof. unfold nonneg, ex_t8, ex_t4, ex_t7. repeat split; repeat constructor; unfold tw; simpl; try lra; auto. Qed.

(** ** Flags left by SetActivationFlag *)
Definition all_false : nat -> bool := fun _ => false.
Definition evA : N -> bool := fun _ => true.                (* consistent with node 4 *)
Definition evB : N -> bool := fun v => N.eqb v 1.            (* x1 and not x2: not consistent with node 4 *)
Definition ex_L4 : list nat := Eval vm_compute in match SerializePsddNodes (m_heap ex_m) [4%nat] with Ok L => L | _ => [] end.
Lemma ex_ser4 : SerializePsddNodes (m_heap ex_m) [4%nat] = Ok ex_L4.
Proof. vm_compute. reflexivity. Qed.
(** the second of two calls leaves node 4 marked *)
Lemma flags_stale : exists f1 f2,
  SetActivationFlag (m_heap ex_m) evA ex_L4 all_false = Ok f1 /\ SetActivationFlag (m_heap ex_m) evB ex_L4 f1 = Ok f2 /\
  f2 4%nat = true /\ base ex_t4 evB = false /\
  exists f3, SetActivationFlag (m_heap ex_m) evB ex_L4 all_false = Ok f3 /\ f3 4%nat = false.
Proof.
  do 2 eexists. split; [vm_compute; reflexivity|]. split; [vm_compute; reflexivity|]. split; [vm_compute; reflexivity|]. split; [reflexivity|].
  eexists. split; vm_compute; reflexivity.
Qed.
(** after SetActivationFlag, IsConsistent answers true for evidence without completion *)
Lemma consistent_stale : exists f1 f2,
  SetActivationFlag (m_heap ex_m) evA ex_L4 all_false = Ok f1 /\
  IsConsistent (m_heap ex_m) (fun _ => true) evB 4 f1 = Ok (true, f2) /\
  (forall y, agrees (leaves ex_vt12) (fun _ => true) evB y -> base ex_t4 y = false) /\
  exists f3, IsConsistent (m_heap ex_m) (fun _ => true) evB 4 all_false = Ok (false, f3).
Proof.
  do 2 eexists. split; [vm_compute; reflexivity|]. split; [vm_compute; reflexivity|]. split.
  - intros y A. pose proof (A 1%N (or_introl eq_refl) eq_refl) as A1. pose proof (A 2%N (or_intror (or_introl eq_refl)) eq_refl) as A2.
    simpl. unfold lit_sat. simpl. rewrite A1, A2. reflexivity.
  - eexists. vm_compute. reflexivity.
Qed.

(** ** The code's comparison in GetMPESolution: pt = 1 and pf = exp(-1e-8) compare equal *)
Lemma trunc_small y : Rabs y < 1 -> trunc y = 0%Z.
Proof. intros H. apply trunc_range in H. lia. Qed.
Lemma hv_small r : Rabs (r * 10000000) < 1 -> hv (mkp (Fin r)) = 0%Z.
Proof.
  intros H. unfold mkp. cbn [hv xscale]. unfold cast_x86. apply Rabs_def2 in H as [H1 H2].
  assert (IZR (2 ^ 63) > 1) by (apply IZR_lt; reflexivity).
  assert (IZR (- 2 ^ 63 - 1) < -1) by (apply IZR_lt; reflexivity).
  destruct (Rlt_dec (r * 10000000) (IZR (2 ^ 63))); [|lra]. destruct (Rle_dec (r * 10000000) (IZR (- 2 ^ 63 - 1))); [lra|].
  rewrite trunc_small; [reflexivity|]. apply Rabs_def1; lra.
Qed.
Lemma one_log : @pone Lcode = lc (Fin 0).
Proof. unfold lc. simpl. unfold p_of_decimal, xlog. destruct (Rlt_dec 0 1); [|lra]. rewrite ln_1. reflexivity. Qed.
Definition tiny : R := - / 100000000.
Lemma tiny_hv : hv (mkp (Fin tiny)) = 0%Z.
Proof. apply hv_small. unfold tiny. apply Rabs_def1; lra. Qed.
Lemma zero_hv : hv (mkp (Fin 0)) = 0%Z.
Proof. apply hv_small. rewrite Rmult_0_l, Rabs_R0. lra. Qed.
(** the value of a parameter of the code *)
Definition cval (a : Lcode) : R := match par a with Fin r => exp r | _ => 0 end.
Definition mpe_heap : heap Lcode := [MkN [] 0 (BTop 1 (lc (Fin 0)) (lc (Fin tiny)))].
Lemma mpe_not_best : exists x v ud', GetMPESolution 5 mpe_heap [0%nat] (fun _ => None) = Ok (x, v, ud') /\
  cval v < cval (lc (Fin 0)) /\ x 1%N = false.
Proof.
  assert (pgt (lc (Fin 0)) (lc (Fin tiny)) = false) as E.
  { simpl. unfold lc, p_of_log, p_gt, p_eq. rewrite tiny_hv, zero_hv. reflexivity. }
  unfold GetMPESolution. cbn [foldM rev app]. unfold mpe_step, node_of. cbn [nth_error mpe_heap get bind mpe_node n_body]. rewrite E.
  cbn. do 3 eexists. split; [reflexivity|]. split; [|reflexivity]. unfold cval. cbn. apply exp_increasing. unfold tiny. lra.
Qed.

(** ** DirectSample with the code's comparison: the draw exp(-1e-8) < 1 selects no element *)
Definition smp_heap : heap Lcode := [MkN [false] 0 (BLit 1); MkN [true] 0 (BLit 2); MkN [] 0 (BDec [MkE 0 1 (lc (Fin 0))])].
Lemma sample_aborts : cval (lc (Fin tiny)) < 1 /\ DirectSample 5 smp_heap 2 (fun _ => false) [lc (Fin tiny)] = Abort /\
  (exists x, DirectSample 5 smp_heap 2 (fun _ => false) [lc (Fin (- 1))] = Ok (x, [])).
Proof.
  split; [unfold cval; cbn; rewrite <- exp_0; apply exp_increasing; unfold tiny; lra|].
  assert (forall u, pick u pzero [MkE 0 1 (lc (Fin 0))] = if plt u (lc (Fin 0)) then Ok (MkE 0 1 (lc (Fin 0))) else Abort) as K by (intros u; reflexivity).
  cbn [DirectSample]. unfold node_of. cbn [nth_error smp_heap get bind n_body draw fst snd]. rewrite !K. split.
  - assert (plt (lc (Fin tiny)) (lc (Fin 0)) = false) as ->; [|reflexivity]. simpl. unfold lc, p_of_log, p_lt, p_eq. rewrite tiny_hv, zero_hv. reflexivity.
  - assert (plt (lc (Fin (- 1))) (lc (Fin 0)) = true) as ->; [|eexists; reflexivity].
    assert (hv (lc (Fin (-1))) <> 0)%Z as D.
    { unfold lc, mkp, hv. cbn [xscale]. replace (-1 * 10000000) with (IZR (-10000000)) by lra. rewrite cast_small by (split; reflexivity). discriminate. }
    change (p_lt (lc (Fin (- 1))) (lc (Fin 0)) = true). unfold p_lt, p_eq. unfold lc at 2, p_of_log. rewrite zero_hv.
    apply Z.eqb_neq in D. cbv [lc] in *. rewrite D. cbn. destruct (Rlt_dec (-1) 0); auto. lra.
Qed.

(** a top node with the parameters 1 and 0: the same draw yields the instantiation of probability zero *)
Definition top_heap : heap Lcode := [MkN [] 0 (BTop 1 (lc (Fin 0)) pzero)].
Lemma sample_zero : GetPsddTopNode (new_mgr (Leaf 1)) 1 0 (lc (Fin 0)) pzero = Ok (0%nat, MkM (Leaf 1) top_heap [0%nat]) /\ cval (@pzero Lcode) = 0 /\
  DirectSample 5 top_heap 0 (fun _ => false) [lc (Fin tiny)] = Ok (fun _ => false, []).
Proof.
  split; [reflexivity|]. split; [reflexivity|]. cbn [DirectSample]. unfold node_of. cbn [nth_error top_heap get bind n_body draw fst snd].
  assert (plt (lc (Fin tiny)) (lc (Fin 0)) = false) as ->; [|reflexivity]. simpl. unfold lc, p_of_log, p_lt, p_eq. rewrite tiny_hv, zero_hv. reflexivity.
Qed.

(** ** GetMarginals and Evaluate on a PSDD that is not normalized: two top nodes with parameters (1,1) *)
Definition un_ops : list (@op Qex) := [OTop 1 0 (q 1 1) (q 1 1); OTop 2 0 (q 1 2) (q 1 2); ODec [0%nat] [1%nat] [q 1 1] 0].
Definition un_m : mgr Qex := Eval vm_compute in match runs (new_mgr ex_vt12) un_ops with Ok m => m | _ => new_mgr ex_vt end.
Lemma un_runs : runs (new_mgr ex_vt12) un_ops = Ok un_m.
Proof. vm_compute. reflexivity. Qed.
Definition un_t : ptree := TDec [(TTop 1 1 1, TTop 2 (1/2) (1/2), 1)].
Lemma un_at : @psdd_at Qex qval un_m 2 ex_vt12 un_t.
Proof.
  split.
  - apply (@runs_wf Qex (@val_peq_refl Qex qval Qex_exact) (@val_plt_irrefl Qex qval Qex_exact) un_ops (new_mgr ex_vt12) un_m); [|apply un_runs].
    apply wf_new. vm_compute. repeat constructor; simpl; intuition congruence.
  - split; [|exists []; split; reflexivity]. unfold un_t. eapply Rep_dec; [reflexivity..|]. repeat constructor; unfold tp, ts, tw; simpl; [| |qv].
    + replace 1 with (qval (q 1 1)) by qv. eapply Rep_top; reflexivity.
    + replace (1/2) with (qval (q 1 2)) by qv. eapply Rep_top; reflexivity.
Qed.
Lemma unnormalized_false : exists v mask,
  @Evaluate Qex (m_heap un_m) mask (fun _ => true) 2 = Ok v /\
  qval v <> sum_over (leaves ex_vt12) (fun y => if agreesb (leaves ex_vt12) mask (fun _ => true) y then weight un_t y else 0) (fun _ => true).
Proof.
  eexists. exists (fun _ => false). split; [vm_compute; reflexivity|]. unfold qval. simpl. unfold agreesb. simpl. unfold upd. simpl. lra.
Qed.
