(** Learning and sampling parameters into the flag of a constant-true leaf (C88): the unique table does not look at the false
    parameter of a leaf, and hands out the leaf (1, 1) for the parameters (1, 0). *)
From Coq Require Import Reals Lra.
From Verif Require Import Base Param ParamProofs Vtree VtreeProofs Spec SpecProofs Heap Manager HeapProofs SerProofs RepProofs OrderProofs CanonProofs
  HeapExamples LoadProofs MulProofs ReplayProofs Query QueryProofs SampleProofs Learn LearnProofs CountProofs QueryExamples LearnExamples TransferProofs TransferCode NearCertain.
Local Open Scope R_scope.

(** a manager that holds the constant true over one variable *)
Definition one_true {P : pops} (fl : N) : mgr P := MkM (Leaf 1) [MkN [] fl (BTop 1 pone pone)] [0%nat].
Section Run.
Context {P : pops}.
Lemma one_true_run fl : GetTrueNode [] fl (new_mgr (Leaf 1)) = Ok (0%nat, @one_true P fl).
Proof. reflexivity. Qed.
Lemma one_true_top fl (a b : P) : plt a pone = false -> plt pone a = false -> GetPsddTopNode (one_true fl) 1 fl a b = Ok (0%nat, one_true fl).
Proof.
  intros A B. unfold GetPsddTopNode. cbn [leaf_path m_vt one_true N.eqb Pos.eqb]. unfold GetUniqueNode. cbn [find m_live m_heap nth_error one_true].
  unfold same_slot, equiv, node_less. cbn [n_flag n_body n_vt]. rewrite N.eqb_refl. cbn [negb N.eqb Pos.eqb]. rewrite A, B. reflexivity.
Qed.
Lemma one_true_ser fl : SerializePsddNodes (m_heap (@one_true P fl)) [0%nat] = Ok [0%nat].
Proof. reflexivity. Qed.
Lemma count_all (recs : list inst) : (forall x, In x recs -> x 1%N = true) ->
  count_top (repeat true (length recs)) (map (fun x : inst => x 1%N) recs) = Ok (N.of_nat (length recs), 0%N).
Proof.
  induction recs as [|x l IH]; intros H; auto. cbn [length repeat map count_top]. rewrite IH by (intros; apply H; right; auto). cbn [bind].
  rewrite (H x) by (left; auto). cbn [length]. rewrite Nat2N.inj_succ. reflexivity.
Qed.
Lemma negb_repeat n : map negb (repeat false n) = repeat true n.
Proof. induction n; simpl; congruence. Qed.
Definition two_counts : counts := fun _ => [0; 0]%N.
Definition one_ex (recs : list inst) : examples := fun v => Some (map (fun x : inst => x v) recs).
Lemma one_true_learn fl (recs : list inst) (alpha : P) : recs <> [] -> (forall x, In x recs -> x 1%N = true) ->
  let t := padd (pnat (N.of_nat (length recs))) alpha in let f := padd (pnat 0) alpha in
  plt (pdiv t (padd t f)) pone = false -> plt pone (pdiv t (padd t f)) = false ->
  exists ud dc, LearnPsddParameters (m_heap (@one_true P fl)) no_ud two_counts 0 (one_ex recs) (length recs) alpha fl (one_true fl) = Ok (0%nat, ud, dc, one_true fl) /\
    (forall i, ud i = None) /\ (forall i, dc i = [0; 0]%N).
Proof.
  intros NE H t f A B. do 2 eexists. split; [unfold LearnPsddParameters; rewrite one_true_ser; cbn [bind]|].
  - destruct (Nat.eqb (length recs) 0) eqn:E; [destruct recs; [congruence|discriminate]|].
    cbn [rev app foldM]. unfold value_step, value_node, node_of. cbn [one_true m_heap nth_error get bind n_body]. cbn [foldM bind].
    unfold context_step, node_of. cbn [nth_error get bind n_body]. unfold one_ex. rewrite !set_at_same, negb_repeat, count_all by auto.
    assert (forall a b c : N, upd_nth [a; b] 0 c = [c; b] /\ upd_nth [a; b] 1 c = [a; c]) as UN by (intros; split; reflexivity).
    cbn [bind]. unfold add_count, two_counts. cbn [nth_error get bind]. rewrite set_at_same, (proj1 (UN _ _ _)). cbn [nth_error get bind]. rewrite (proj2 (UN _ _ _)). cbn [foldM bind].
    unfold learn_step, node_of. cbn [nth_error get bind]. unfold learn_params. cbn [n_body]. rewrite set_at_same. cbn [nth_error get bind].
    rewrite !N.add_0_l. fold t. fold f. unfold relab_step, node_of. cbn [nth_error get bind n_body].
    pose proof (one_true_top fl (pdiv t (padd t f)) (pdiv f (padd t f)) A B) as K. rewrite K. cbn [bind].
    unfold set_ud at 1. rewrite Nat.eqb_refl. cbn [get bind]. reflexivity.
  - split.
    + intros i. rewrite clear_ud_spec. unfold set_ud. destruct i; reflexivity.
    + intros i. rewrite reset_spec. destruct i; reflexivity.
Qed.
Lemma one_true_sample (G : dops P) near1 fl u1 u2 us : let s := d_sum G u1 u2 in near1 (padd (d_ratio G u1 s) (d_ratio G u2 s)) = true ->
  plt (d_ratio G u1 s) pone = false -> plt pone (d_ratio G u1 s) = false ->
  exists ud, SampleParameters G near1 (m_heap (@one_true P fl)) no_ud 0 fl (u1 :: u2 :: us) (one_true fl) = Ok (0%nat, us, ud, one_true fl) /\ forall i, ud i = None.
Proof.
  intros s N A B. eexists. split; [unfold SampleParameters, SampleParametersForMultiplePsdds; rewrite one_true_ser; cbn [bind rev app foldM]|].
  - unfold sample_step, node_of. cbn [one_true m_heap nth_error get bind fst snd]. unfold sample_params. cbn [n_body next bind]. fold s. rewrite N. cbn [assert bind].
    unfold relab_step, node_of. cbn [nth_error get bind n_body].
    pose proof (one_true_top fl (d_ratio G u1 s) (d_ratio G u2 s) A B) as K. rewrite K. cbn [bind foldM fst snd mapM].
    unfold set_ud at 1. rewrite Nat.eqb_refl. cbn [get bind hd_error]. reflexivity.
  - intros i. rewrite clear_ud_spec. unfold set_ud. destruct i; reflexivity.
Qed.
End Run.
(** ** With exact comparison, no smoothing, and records in which the variable is always true *)
Section Exact.
Context {P : pops} (val : P -> R) (HP : pexact P val).
Lemma one_true_tidy fl fl' : tidy val fl (@one_true P fl').
Proof.
  eapply (tidy_step val fl (new_mgr (Leaf 1)) (OTrue [] fl')); [apply tidy_new; repeat constructor; simpl; tauto|exact Logic.I|].
  unfold step. rewrite one_true_run. reflexivity.
Qed.
Lemma one_true_rep fl : Rep val (m_heap (@one_true P fl)) 0 (TTop 1 1 1).
Proof.
  pose proof (@Rep_top P val (m_heap (@one_true P fl)) 0 (MkN [] fl (BTop 1 pone pone)) 1%N pone pone eq_refl eq_refl) as K. rewrite (val_one HP) in K. exact K.
Qed.
Lemma one_true_at fl : psdd_at val (one_true fl) 0 (Leaf 1) (TTop 1 1 1).
Proof. split; [apply (proj1 (tidy_inv val HP fl _ (one_true_tidy fl fl)))|]. split; [apply one_true_rep|]. exists []. split; reflexivity. Qed.
Lemma one_true_reach fl i : reach (m_heap (@one_true P fl)) 0 i -> i = 0%nat.
Proof.
  intros H. remember 0%nat as z eqn:Ez. induction H as [|j nd c k E Hc HR IH]; auto. subst. injection E as <-. destruct Hc.
Qed.
Lemma ncount_all {A} (Q : A -> Prop) (l : list A) : (forall a, In a l -> Q a) -> ncount Q l (N.of_nat (length l)).
Proof.
  induction l as [|a l IH]; intros H; [constructor|]. cbn [length]. rewrite Nat2N.inj_succ. constructor; [apply H; left; auto|apply IH; intros; apply H; right; auto].
Qed.
Lemma ncount_none {A} (Q : A -> Prop) (l : list A) : (forall a, In a l -> ~ Q a) -> ncount Q l 0.
Proof. induction l as [|a l IH]; intros H; constructor; [apply H; left; auto|apply IH; intros; apply H; right; auto]. Qed.
Lemma one_true_counts fl (recs : list inst) nd ns : (forall x, In x recs -> x 1%N = true) -> nth_error (m_heap (@one_true P fl)) 0 = Some nd ->
  node_counts val (m_heap (@one_true P fl)) 0 recs 0 nd ns -> ns = [N.of_nat (length recs); 0%N].
Proof.
  intros H E NC. injection E as <-. unfold node_counts in NC. cbn [n_body] in NC. destruct NC as (a & b & -> & A & B). f_equal; [|f_equal].
  - eapply ncount_fun; [exact A|]. apply ncount_all. intros x Hx. split; [constructor|auto].
  - eapply ncount_fun; [exact B|]. apply ncount_none. intros x Hx [_ Q]. rewrite H in Q by auto. discriminate.
Qed.
Lemma rn_len {A} (l : list A) : l <> [] -> 1 <= rn (N.of_nat (length l)).
Proof. intros H. unfold rn. apply (IZR_le 1). destruct l; [congruence|]. simpl length. lia. Qed.
Theorem learn_into_true fl (recs : list inst) (alpha : P) : recs <> [] -> (forall x, In x recs -> x 1%N = true) -> val alpha = 0 ->
  (exists ud dc, LearnPsddParameters (m_heap (@one_true P fl)) no_ud two_counts 0 (one_ex recs) (length recs) alpha fl (one_true fl) = Ok (0%nat, ud, dc, one_true fl)) /\
  (forall f t', (forall i nd, reach (m_heap (@one_true P fl)) 0 i -> nth_error (m_heap (@one_true P fl)) i = Some nd ->
                 exists ns, node_counts val (m_heap (@one_true P fl)) 0 recs i nd ns /\ f i = freqs 0 ns) ->
     relab f (m_heap (@one_true P fl)) 0 t' -> t' = TTop 1 1 0).
Proof.
  intros NE H A0. pose proof (rn_len recs NE) as HN. split.
  - assert (let t := padd (pnat (N.of_nat (length recs))) alpha in let f := padd (pnat 0) alpha in val (pdiv t (padd t f)) = 1) as Q.
    { intros t f. assert (val t = rn (N.of_nat (length recs))) as Et by (unfold t; rewrite (val_count val HP), A0; lra).
      assert (val f = 0) as Ef by (unfold f; rewrite (val_count val HP), A0; unfold rn; simpl; lra).
      rewrite (val_div HP); rewrite (val_add HP), Et, Ef, Rplus_0_r; [field|]; lra. }
    destruct (one_true_learn fl recs alpha NE H) as (ud & dc & E & _); [| |exists ud, dc; exact E];
      apply not_true_iff_false; intros K; apply (val_lt HP) in K; rewrite (val_one HP), Q in K; lra.
  - intros f t' HF RL. destruct (HF 0%nat _ (reach_refl _ _) eq_refl) as (ns & NC & Ef). apply one_true_counts in NC; auto. subst ns.
    inversion RL as [i0 nd l E1 E2|i0 nd v pt pf a b E1 E2 E3|i0 nd es tes tes' E1 E2]; subst; injection E1 as <-; cbn [n_body] in E2; try discriminate.
    injection E2 as <- _ _. rewrite Ef in E3. unfold freqs in E3. cbn [map rsum fold_right] in E3. injection E3 as <- <-. unfold rn at 3 5. simpl. f_equal.
    + unfold rn in *. field. lra.
    + unfold rn in *. field. lra.
Qed.
End Exact.

(** ** With the comparison of the code: little smoothing, skewed draws *)
Lemma cr_nat n : 0 < rn n -> @pnat Lcode n = cr (rn n).
Proof. intros H. unfold cr. rewrite <- (h_nat code_hom). f_equal. apply cl_of; auto. rewrite (val_nat Lexact_arith). reflexivity. Qed.
Lemma cr_nat_zero a : 0 < a -> padd (@pnat Lcode 0) (cr a) = cr a.
Proof.
  intros H. unfold cr. rewrite <- (h_nat code_hom 0), <- (h_add code_hom). f_equal. apply cl_of; auto.
  rewrite (val_add Lexact_arith), (val_nat Lexact_arith), cl_val by auto. simpl. lra.
Qed.
Theorem learn_into_true_code fl (recs : list inst) a : (forall x, In x recs -> x 1%N = true) -> 0 < a -> a * 10000000 < INR (length recs) ->
  exists ud dc, LearnPsddParameters (m_heap (@one_true Lcode fl)) no_ud two_counts 0 (one_ex recs) (length recs) (cr a) fl (one_true fl) = Ok (0%nat, ud, dc, one_true fl).
Proof.
  intros H A L. set (n := rn (N.of_nat (length recs))).
  assert (n = INR (length recs)) as En by (unfold n, rn; rewrite nat_N_Z, INR_IZR_INZ; reflexivity).
  assert (recs <> []) as NE by (intros ->; simpl in L; lra).
  assert (0 < n) as HN by lra.
  destruct (cr_near (n + a) a A) as [N1 N2]; [lra|].
  destruct (@one_true_learn Lcode fl recs (cr a) NE H) as (ud & dc & E & _); [| |exists ud, dc; exact E];
    rewrite cr_nat_zero, cr_nat by auto; fold n; rewrite !cr_add, cr_div, cr_one by lra; auto.
Qed.
(** The random doubles of SampleParameters as real numbers, psdd_manager.cpp 677-681, 699-700, and the assertion of line 683 *)
Definition Dreal : dops Lcode := Build_dops Lcode R (fun u => p_of_decimal (Fin u)) Rplus (fun a b => p_of_decimal (Fin (a / b))).
Definition near1_c (p : Lcode) : bool := match par p with Fin x => if Rle_dec (Rabs x) (1 / 10000) then true else false | _ => false end.
Lemma cr_decimal r : 0 < r -> p_of_decimal (Fin r) = cr r.
Proof. intros H. unfold p_of_decimal, xlog. destruct (Rlt_dec 0 r); [reflexivity|contradiction]. Qed.
Lemma near1_one : near1_c (cr 1) = true.
Proof.
  unfold near1_c. change (par (cr 1)) with (Fin (ln 1)). rewrite ln_1, Rabs_R0. destruct (Rle_dec 0 (1 / 10000)); [auto|lra].
Qed.
Theorem sample_into_true fl u1 u2 us : 0 < u2 -> u2 * 10000000 < u1 ->
  exists ud, SampleParameters Dreal near1_c (m_heap (one_true fl)) no_ud 0 fl (u1 :: u2 :: us) (one_true fl) = Ok (0%nat, us, ud, one_true fl).
Proof.
  intros H L. destruct (cr_near u1 u2 H L) as [N1 N2].
  assert (0 < u1 / (u1 + u2)) by (apply Rdiv_lt_0_compat; lra). assert (0 < u2 / (u1 + u2)) by (apply Rdiv_lt_0_compat; lra).
  destruct (one_true_sample Dreal near1_c fl u1 u2 us) as (ud & E & _); [| | |exists ud; exact E]; cbn [d_ratio d_sum Dreal].
  - rewrite !cr_decimal by auto. rewrite cr_add by auto. replace (u1 / (u1 + u2) + u2 / (u1 + u2)) with 1 by (field; lra). apply near1_one.
  - rewrite cr_decimal, cr_one by auto. exact N1.
  - rewrite cr_decimal, cr_one by auto. exact N2.
Qed.
Lemma one_true_code fl : Rep cval (m_heap (@one_true Lcode fl)) 0 (TTop 1 1 1).
Proof.
  pose proof (@Rep_top Lcode cval (m_heap (one_true fl)) 0 (MkN [] fl (BTop 1 pone pone)) 1%N pone pone eq_refl eq_refl) as K. rewrite cr_one, (cr_val 1 Rlt_0_1) in K. exact K.
Qed.
