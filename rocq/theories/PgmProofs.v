(** Proofs about the compilation of factors (exact parameters). *)
From Coq Require Import Reals Lra.
From Verif Require Import Base Param Vtree VtreeProofs Spec SpecProofs Heap Manager HeapProofs SerProofs RepProofs MulProofs Pgm PgmLayout.
Local Open Scope R_scope.

(** ** Specification: the value of a factor.
    The table lists the values with the last variable of the scope changing fastest. *)
Definition table_index (scope : list N) (x : inst) : N :=
  fold_left (fun n v => (2 * n + (if x v then 1 else 0))%N) scope 0%N.
Section Spec.
Context {P : pops} (val : P -> R).
Definition table_value (table : list P) (c : N) : R :=
  match nth_error table (N.to_nat c) with Some w => val w | None => 0 end.
Definition factor_value (F : factor P) (x : inst) : R := table_value (f_table F) (table_index (f_scope F) x).
Definition network_value (fs : network P) (x : inst) : R := fold_right (fun F r => factor_value F x * r) 1 fs.
(** Factors the compiler can handle over a vtree *)
Record good_factor (vt : vtree) (F : factor P) : Prop := {
  gf_nodup : NoDup (f_scope F);
  gf_nonempty : f_scope F <> [];
  gf_vars : incl (f_scope F) (leaves vt);
  gf_len : (length (f_scope F) <= 31)%nat;
  gf_table : N.of_nat (length (f_table F)) = (2 ^ N.of_nat (length (f_scope F)))%N;
  gf_layout : right_linear (f_scope F) vt;
}.
End Spec.

(** ** Bits *)
Section Bits.
Open Scope N_scope.
Lemma lt_pow2 a n : a < 2 ^ n <-> forall k, n <= k -> N.testbit a k = false.
Proof.
  split.
  - intros H k Hk. rewrite <- (N.mod_small a (2 ^ n) H). apply N.mod_pow2_bits_high. exact Hk.
  - intros H. assert (a = a mod 2 ^ n) as ->.
    { apply N.bits_inj. intros k. destruct (N.lt_ge_cases k n).
      - rewrite N.mod_pow2_bits_low; auto.
      - rewrite N.mod_pow2_bits_high; auto. }
    apply N.mod_lt. apply N.pow_nonzero. discriminate.
Qed.
Lemma setbit_lt a j n : a < 2 ^ n -> j < n -> N.setbit a j < 2 ^ n.
Proof.
  rewrite !lt_pow2. intros H Hj k Hk. rewrite N.setbit_neq by lia. auto.
Qed.
Lemma clearbit_lt a j n : a < 2 ^ n -> N.clearbit a j < 2 ^ n.
Proof.
  rewrite !lt_pow2. intros H k Hk. rewrite N.clearbit_eqb, H; auto.
Qed.
Lemma setbit_clear a j : N.testbit a j = false -> N.clearbit (N.setbit a j) j = a.
Proof.
  intros H. apply N.bits_inj. intros k. rewrite N.clearbit_eqb. destruct (N.eqb_spec j k) as [->|NE].
  - rewrite andb_false_r. auto.
  - rewrite N.setbit_neq by auto. apply andb_true_r.
Qed.
Lemma clearbit_id a j : N.testbit a j = false -> N.clearbit a j = a.
Proof.
  intros H. apply N.bits_inj. intros k. rewrite N.clearbit_eqb. destruct (N.eqb_spec j k) as [->|NE].
  - rewrite andb_false_r. auto.
  - apply andb_true_r.
Qed.
Lemma testbit_clear a j k : N.testbit (N.clearbit a j) k = N.testbit a k && negb (j =? k).
Proof. apply N.clearbit_eqb. Qed.
Lemma clear_set_neq a j k : j <> k -> N.testbit (N.setbit a j) k = N.testbit a k.
Proof. intros. apply N.setbit_neq. auto. Qed.
End Bits.

(** Contexts: setting the bits of the variables that are true *)
Fixpoint fill (D : list (N * N)) (x : inst) (c : N) : N :=
  match D with
  | [] => c
  | (j, v) :: D' => fill D' x (if x v then N.setbit c j else c)
  end.
Lemma fill_testbit D x : forall c k, N.testbit (fill D x c) k = N.testbit c k || existsb (fun jv => N.eqb (fst jv) k && x (snd jv)) D.
Proof.
  induction D as [|[j v] D IH]; intros c k; simpl; [rewrite orb_false_r; auto|].
  rewrite IH. destruct (x v).
  - rewrite N.setbit_eqb, andb_true_r. destruct (N.eqb j k), (N.testbit c k); auto.
  - rewrite andb_false_r. reflexivity.
Qed.
(** The index of the entry of an instantiation, bit by bit *)
Lemma table_index_snoc scope v x : table_index (scope ++ [v]) x = (2 * table_index scope x + (if x v then 1 else 0))%N.
Proof. unfold table_index. rewrite fold_left_app. reflexivity. Qed.
Lemma table_index_testbit x : forall scope k, N.testbit (table_index scope x) (N.of_nat k) =
  match nth_error (rev scope) k with Some v => x v | None => false end.
Proof.
  intros scope. induction scope as [|v scope IH] using rev_ind; intros k.
  - destruct k; reflexivity.
  - rewrite table_index_snoc, rev_app_distr. cbn [rev app].
    replace (if x v then 1 else 0)%N with (N.b2n (x v)) by (destruct (x v); auto).
    destruct k as [|k].
    + rewrite N.testbit_0_r. reflexivity.
    + rewrite Nat2N.inj_succ, N.testbit_succ_r. simpl. apply IH.
Qed.

(** ** Positions in the scope *)
Lemma index_of_spec v l : match index_of v l with Some j => nth_error l j = Some v | None => ~ In v l end.
Proof.
  induction l as [|w l IH]; simpl; auto. destruct (N.eqb_spec w v) as [->|NE]; [reflexivity|].
  destruct (index_of v l) as [j|]; simpl; auto. intros [E|H]; auto.
Qed.
Definition idx (l : list N) (v : N) : nat := match index_of v l with Some j => j | None => 0%nat end.
Lemma idx_nth l v : In v l -> nth_error l (idx l v) = Some v.
Proof. intros H. unfold idx. pose proof (index_of_spec v l). destruct (index_of v l); auto. contradiction. Qed.
Lemma idx_lt l v : In v l -> (idx l v < length l)%nat.
Proof. intros H. apply nth_error_Some. rewrite (idx_nth l v H). discriminate. Qed.
Lemma idx_inj l v w : In v l -> In w l -> idx l v = idx l w -> v = w.
Proof. intros H1 H2 E. apply idx_nth in H1, H2. rewrite E in H1. congruence. Qed.
Lemma locs_map scope (L : list (path * N)) : Forall (fun x => In (snd x) scope) L ->
  flat_map (fun x => match index_of (snd x) scope with Some j => [j] | None => [] end) L = map (fun x => idx scope (snd x)) L.
Proof.
  induction 1 as [|x L H F IH]; simpl; auto. rewrite IH. unfold idx. pose proof (index_of_spec (snd x) scope) as S.
  destruct (index_of (snd x) scope); auto. contradiction.
Qed.
Lemma combine_map {A B C} (f : A -> B) (g : A -> C) l : combine (map f l) (map g l) = map (fun a => (f a, g a)) l.
Proof. induction l as [|a l IH]; simpl; auto. rewrite IH. reflexivity. Qed.
Lemma Nlookup_in {V} k (c : list (N * V)) : NoDup (map fst c) -> forall v, Nlookup k c = Some v <-> In (k, v) c.
Proof.
  induction c as [|[k' v'] c IH]; intros ND v; [split; [discriminate|contradiction]|]. cbn [map fst In] in *.
  inversion ND as [|? ? NI ND']; subst. rewrite Nlookup_cons. destruct (N.eqb_spec k k') as [->|NE].
  - split; [intros E; injection E as <-; auto|]. intros [E|H]; [congruence|]. exfalso. apply NI, in_map_iff. exists (k', v). auto.
  - rewrite IH; auto. split; auto. intros [E|H]; [congruence|auto].
Qed.
Lemma Nlookup_none {V} k (c : list (N * V)) : Nlookup k c = None <-> ~ In k (map fst c).
Proof.
  induction c as [|[k' v'] c IH]; [simpl; tauto|]. cbn [map fst In]. rewrite Nlookup_cons. destruct (N.eqb_spec k k') as [->|NE].
  - split; [discriminate|]. intros H. exfalso. auto.
  - rewrite IH. split; intros H; [intros [E|X]; auto|auto].
Qed.

Section Compile.
Context {P : pops} {val : P -> R} (HP : pexact P val).
Notation mgr := (mgr P). Notation heap := (heap P).
Notation node_at := (node_at val). Notation Inv := (Inv val).

(** The node [o] with normalizer [z] stands for the function [f] *)
Definition stands (m : mgr) (q : path) (o : option nat) (z : P) (f : inst -> R) : Prop :=
  match o with
  | None => val z = 0 /\ forall x, f x = 0
  | Some i => 0 < val z /\ exists t, node_at m i q t /\ positive t /\ deterministic t /\ In i (m_live m) /\ forall x, weight t x * val z = f x
  end.
Lemma stands_ext m m' q o z f : mext 0%N m m' -> stands m q o z f -> stands m' q o z f.
Proof.
  intros X. destruct o as [i|]; simpl; auto. intros (H & t & A & B & C & L & W). split; auto. exists t.
  split; [eapply node_at_ext; eauto|]. split; auto. split; auto. split; auto. apply X. auto.
Qed.
Lemma val_nonneg_ (a : P) : 0 <= val a. Proof. apply (val_nonneg HP). Qed.
Lemma peq_zero_false a : peq a pzero = false -> 0 < val a.
Proof.
  intros H. destruct (Req_dec (val a) 0) as [E|E].
  - rewrite <- (val_zero HP) in E. apply (val_eq HP) in E. congruence.
  - pose proof (val_nonneg_ a). lra.
Qed.
Lemma peq_zero_true a : peq a pzero = true -> val a = 0.
Proof. intros H. apply (val_eq HP) in H. rewrite H. apply (val_zero HP). Qed.
Lemma lit_pos_weight v x : v <> 0%N -> weight (TLit (Z.of_N v)) x = if x v then 1 else 0.
Proof.
  intros H. simpl. unfold lit_sat. rewrite Zabs2N.id. assert (Z.ltb 0 (Z.of_N v) = true) as -> by (apply Z.ltb_lt; lia).
  destruct (x v); reflexivity.
Qed.
Lemma lit_neg_weight v x : v <> 0%N -> weight (TLit (- Z.of_N v)) x = if x v then 0 else 1.
Proof.
  intros H. simpl. unfold lit_sat. rewrite Zabs2N.inj_opp, Zabs2N.id. assert (Z.ltb 0 (- Z.of_N v) = false) as -> by (apply Z.ltb_ge; lia).
  destruct (x v); reflexivity.
Qed.
Lemma lit_var_pos v : lit_var (Z.of_N v) = v. Proof. apply Zabs2N.id. Qed.
Lemma lit_var_neg v : lit_var (- Z.of_N v) = v. Proof. unfold lit_var. rewrite Zabs2N.inj_opp. apply Zabs2N.id. Qed.

Ltac s1 := split; [solve [auto | simpl; auto | repeat split; auto]|].
Lemma term_node_spec m v p pos neg : Inv 0%N m -> v <> 0%N -> subtree (m_vt m) p = Some (Leaf v) ->
  exists o z m', term_node v pos neg m = Ok (o, z, m') /\ Inv 0%N m' /\ mext 0%N m m' /\ val z = val pos + val neg /\
    stands m' p o z (fun x => if x v then val pos else val neg).
Proof.
  intros I NZ HV. unfold term_node. pose proof (val_nonneg_ pos) as Gp. pose proof (val_nonneg_ neg) as Gn.
  pose proof (val_add HP pos neg) as EA. destruct (peq (padd pos neg) pzero) eqn:E0.
  - apply peq_zero_true in E0. exists None, pzero, m. split; auto. split; auto. split; [apply mext_refl|].
    rewrite (val_zero HP). split; [lra|]. simpl. split; [apply (val_zero HP)|]. intros x. destruct (x v); lra.
  - apply peq_zero_false in E0. destruct (peq pos pzero) eqn:E1; [|destruct (peq neg pzero) eqn:E2].
    + apply peq_zero_true in E1. destruct (literal_spec val HP 0 m (- Z.of_N v) p I) as (i & m1 & E & I1 & X1 & L1 & A1 & _).
      { rewrite lit_var_neg. exact HV. }
      rewrite E. cbn [bind]. exists (Some i), (padd pos neg), m1. do 5 s1.
      exists (TLit (- Z.of_N v)). do 4 s1.
      intros x. rewrite lit_neg_weight by auto. destruct (x v); lra.
    + apply peq_zero_true in E2. destruct (literal_spec val HP 0 m (Z.of_N v) p I) as (i & m1 & E & I1 & X1 & L1 & A1 & _).
      { rewrite lit_var_pos. exact HV. }
      rewrite E. cbn [bind]. exists (Some i), (padd pos neg), m1. do 5 s1.
      exists (TLit (Z.of_N v)). do 4 s1.
      intros x. rewrite lit_pos_weight by auto. destruct (x v); lra.
    + apply peq_zero_false in E1, E2.
      assert (val (padd pos neg) <> 0) as NZ0 by lra.
      pose proof (val_div HP pos _ NZ0) as D1. pose proof (val_div HP neg _ NZ0) as D2.
      assert (0 < val pos / val (padd pos neg)) as P1 by (apply Rdiv_lt_0_compat; lra).
      assert (0 < val neg / val (padd pos neg)) as P2 by (apply Rdiv_lt_0_compat; lra).
      destruct (top_spec val HP 0 m v (pdiv pos (padd pos neg)) (pdiv neg (padd pos neg)) p I HV) as (i & m1 & E & I1 & X1 & L1 & A1 & _).
      { right. rewrite D1, D2. split; auto. rewrite EA. field. lra. }
      rewrite E. cbn [bind]. exists (Some i), (padd pos neg), m1. do 5 s1.
      eexists. split; [exact A1|]. split; [unfold positive; simpl; rewrite D1, D2; auto|]. do 2 s1.
      intros x. simpl. rewrite D1, D2. destruct (x v); field; lra.
Qed.

Lemma lift_elem_wterm root p u w te x : wterm x (lift_elem root p u w te) = wterm x te.
Proof. unfold wterm, lift_elem, tp, ts, tw; simpl. rewrite !lift_weight. reflexivity. Qed.
Lemma dec_positive tes : Forall epos tes -> positive (TDec tes).
Proof. intros H. apply all_nodes_dec. split; (eapply Forall_impl; [|exact H]); intros e (A & B & C); auto. Qed.
Lemma dec_deterministic tes : ForallOrdPairs disj tes -> Forall edet tes -> deterministic (TDec tes).
Proof. intros H F. apply all_nodes_dec. split; auto. Qed.
Lemma lift_elem_pos root p u w te : epos te -> epos (lift_elem root p u w te).
Proof. intros (A & B & C). split; [exact A|]. split; apply lift_positive; auto. Qed.
Lemma lift_elem_det root p u w te : edet te -> edet (lift_elem root p u w te).
Proof. intros (A & B). split; apply lift_deterministic; auto. Qed.
Lemma epos_lit l t w : positive t -> 0 < w -> epos (TLit l, t, w).
Proof. intros A B. split; auto. split; auto. repeat split. Qed.
Lemma edet_lit l t w : deterministic t -> edet (TLit l, t, w).
Proof. intros A. split; auto. repeat split. Qed.
Hint Resolve lift_elem_pos lift_elem_det epos_lit edet_lit Rlt_0_1 : core.
Lemma cond_node_spec m v a u w l r pos neg sp sn fp fn : Inv 0%N m -> v <> 0%N -> subtree (m_vt m) a = Some (VNode l r) ->
  subtree (m_vt m) (u ++ false :: a) = Some (Leaf v) ->
  stands m (w ++ true :: a) sp pos fp -> stands m (w ++ true :: a) sn neg fn ->
  exists o z m', cond_node v pos neg sp sn m = Ok (o, z, m') /\ Inv 0%N m' /\ mext 0%N m m' /\ val z = val pos + val neg /\
    stands m' a o z (fun x => if x v then fp x else fn x).
Proof.
  intros I NZ HA HV SP SN. unfold cond_node. pose proof (val_nonneg_ pos) as Gp. pose proof (val_nonneg_ neg) as Gn.
  pose proof (val_add HP pos neg) as EA.
  assert (forall z o f, val z = 0 -> stands m (w ++ true :: a) o z f -> forall x, f x = 0) as Z0.
  { intros z o f Ez H x. destruct o as [i|]; simpl in H; [destruct H; lra|apply H]. }
  assert (forall z o f, 0 < val z -> stands m (w ++ true :: a) o z f -> exists i, o = Some i) as S0.
  { intros z o f Ez H. destruct o as [i|]; simpl in H; [eauto|destruct H; lra]. }
  destruct (peq (padd pos neg) pzero) eqn:E0.
  - apply peq_zero_true in E0. exists None, pzero, m. split; auto. split; auto. split; [apply mext_refl|].
    rewrite (val_zero HP). split; [lra|]. simpl. split; [apply (val_zero HP)|]. intros x.
    rewrite (Z0 pos sp fp), (Z0 neg sn fn) by (auto; lra). destruct (x v); auto.
  - apply peq_zero_false in E0.
    assert (forall m1 s t l0 par fl0, mext 0%N m m1 -> Inv 0%N m1 -> node_at m1 l0 (u ++ false :: a) (TLit fl0) ->
       node_at m s (w ++ true :: a) t -> val par = 1 ->
       exists i m' te, GetConformedPsddDecisionNode m1 [l0] [s] [par] 0 = Ok (i, m') /\ Inv 0%N m' /\ mext 0%N m1 m' /\ In i (m_live m') /\
         node_at m' i a (TDec [te]) /\ te = lift_elem (m_vt m1) a u w (TLit fl0, t, 1)) as ONE.
    { intros m1 s t l0 par fl0 X1 I1 A1 As Ep.
      destruct (get_conformed_spec val HP 0 m1 a l r [MkE l0 s par] [(TLit fl0, t, 1)] [lift_elem (m_vt m1) a u w (TLit fl0, t, 1)] I1)
        as (i & m2 & tes2 & E2 & I2 & X2 & L2 & PM & A2 & _).
      - rewrite (me_vt _ _ _ X1). exact HA.
      - discriminate.
      - constructor; [|constructor]. split; [exact A1|]. split; [eapply node_at_ext; eauto|]. simpl. unfold tw; simpl. auto.
      - apply Permutation_length_1_inv in PM. subst tes2. simpl in E2. exists i, m2, (lift_elem (m_vt m1) a u w (TLit fl0, t, 1)). do 5 (split; [assumption|]). reflexivity. }
    destruct (peq pos pzero) eqn:E1; [|destruct (peq neg pzero) eqn:E2].
    + apply peq_zero_true in E1. assert (0 < val neg) as Pn by lra.
      destruct (S0 _ _ _ Pn SN) as [s ->]. destruct SN as (_ & t & As & Pt & Dt & _ & Wt).
      destruct (literal_spec val HP 0 m (- Z.of_N v) (u ++ false :: a) I) as (i & m1 & E & I1 & X1 & L1 & A1 & _).
      { rewrite lit_var_neg. exact HV. }
      rewrite E. cbn [bind get].
      destruct (ONE m1 s t i pone _ X1 I1 A1 As (val_one HP)) as (j & m2 & te & Ej & I2 & X2 & L2 & A2 & Et). rewrite Ej. cbn [bind].
      exists (Some j), neg, m2. split; auto. split; auto. split; [eapply mext_trans; eauto|]. split; [lra|]. simpl. split; auto.
      exists (TDec [te]). split; auto. subst te. split; [|split; [|split; auto]].
      * apply dec_positive. constructor; auto.
      * apply dec_deterministic; [constructor; constructor|constructor; auto].
      * intros x. rewrite weight_dec_w. simpl. rewrite lift_elem_wterm. unfold wterm, tp, ts, tw; simpl fst; simpl snd.
        rewrite lit_neg_weight by auto. rewrite (Z0 pos sp fp) by auto. rewrite <- Wt. destruct (x v); lra.
    + apply peq_zero_true in E2. assert (0 < val pos) as Pp by lra.
      destruct (S0 _ _ _ Pp SP) as [s ->]. destruct SP as (_ & t & As & Pt & Dt & _ & Wt).
      destruct (literal_spec val HP 0 m (Z.of_N v) (u ++ false :: a) I) as (i & m1 & E & I1 & X1 & L1 & A1 & _).
      { rewrite lit_var_pos. exact HV. }
      rewrite E. cbn [bind get].
      destruct (ONE m1 s t i pone _ X1 I1 A1 As (val_one HP)) as (j & m2 & te & Ej & I2 & X2 & L2 & A2 & Et). rewrite Ej. cbn [bind].
      exists (Some j), pos, m2. split; auto. split; auto. split; [eapply mext_trans; eauto|]. split; [lra|]. simpl. split; auto.
      exists (TDec [te]). split; auto. subst te. split; [|split; [|split; auto]].
      * apply dec_positive. constructor; auto.
      * apply dec_deterministic; [constructor; constructor|constructor; auto].
      * intros x. rewrite weight_dec_w. simpl. rewrite lift_elem_wterm. unfold wterm, tp, ts, tw; simpl fst; simpl snd.
        rewrite lit_pos_weight by auto. rewrite (Z0 neg sn fn) by auto. rewrite <- Wt. destruct (x v); lra.
    + apply peq_zero_false in E1, E2. clear ONE.
      destruct (S0 _ _ _ E1 SP) as [s1 ->]. destruct SP as (_ & t1 & As1 & Pt1 & Dt1 & _ & Wt1).
      destruct (S0 _ _ _ E2 SN) as [s2 ->]. destruct SN as (_ & t2 & As2 & Pt2 & Dt2 & _ & Wt2).
      destruct (literal_spec val HP 0 m (Z.of_N v) (u ++ false :: a) I) as (i1 & m1 & El1 & I1 & X1 & L1 & A1 & _).
      { rewrite lit_var_pos. exact HV. }
      rewrite El1. cbn [bind get].
      destruct (literal_spec val HP 0 m1 (- Z.of_N v) (u ++ false :: a) I1) as (i2 & m2 & El2 & I2 & X2 & L2 & A2 & _).
      { rewrite lit_var_neg, (me_vt _ _ _ X1). exact HV. }
      rewrite El2. cbn [bind get].
      assert (val (padd pos neg) <> 0) as NZ0 by lra.
      pose proof (val_div HP pos _ NZ0) as D1. pose proof (val_div HP neg _ NZ0) as D2.
      assert (0 < val pos / val (padd pos neg)) as P1 by (apply Rdiv_lt_0_compat; lra).
      assert (0 < val neg / val (padd pos neg)) as P2 by (apply Rdiv_lt_0_compat; lra).
      pose proof (mext_trans _ _ _ _ X1 X2) as X12.
      set (p1 := pdiv pos (padd pos neg)) in *. set (p2 := pdiv neg (padd pos neg)) in *.
      set (te1 := (TLit (Z.of_N v), t1, val p1)). set (te2 := (TLit (- Z.of_N v), t2, val p2)).
      destruct (get_conformed_spec val HP 0 m2 a l r [MkE i1 s1 p1; MkE i2 s2 p2] [te1; te2]
         [lift_elem (m_vt m2) a u w te1; lift_elem (m_vt m2) a u w te2] I2) as (i & m3 & tes & E3 & I3 & X3 & L3 & PM & A3 & _).
      * rewrite (me_vt _ _ _ X12). exact HA.
      * discriminate.
      * repeat constructor; try (eapply node_at_ext; [|eassumption]; eassumption); first [eapply A2|eapply node_at_ext; eauto]; eauto.
      * simpl in E3. rewrite E3. cbn [bind]. exists (Some i), (padd pos neg), m3. split; auto. split; auto.
        split; [eapply mext_trans; eauto|]. split; auto. simpl. split; auto. exists (TDec tes). split; auto.
        split; [|split; [|split; auto]].
        -- apply dec_positive. eapply Permutation_Forall; [exact PM|]. rewrite <- D1 in P1. rewrite <- D2 in P2.
           constructor; [|constructor; [|constructor]]; apply lift_elem_pos, epos_lit; auto.
        -- apply dec_deterministic; [|eapply Permutation_Forall; [exact PM|]; constructor; [|constructor; [|constructor]]; apply lift_elem_det, edet_lit; auto].
           assert (forall e1 e2, In e1 [lift_elem (m_vt m2) a u w te1; lift_elem (m_vt m2) a u w te2] ->
             In e2 [lift_elem (m_vt m2) a u w te1; lift_elem (m_vt m2) a u w te2] -> e1 <> e2 -> disj e1 e2) as DJ.
           { assert (disj (lift_elem (m_vt m2) a u w te1) (lift_elem (m_vt m2) a u w te2)) as D12.
             { intros x. unfold lift_elem, te1, te2, tp; simpl. rewrite !lift_base. simpl. unfold lit_sat.
               rewrite Zabs2N.inj_opp, !Zabs2N.id. assert (Z.ltb 0 (- Z.of_N v) = false) as -> by (apply Z.ltb_ge; lia).
               assert (Z.ltb 0 (Z.of_N v) = true) as -> by (apply Z.ltb_lt; lia). destruct (x v); reflexivity. }
             intros e1 e2 [<-|[<-|[]]] [<-|[<-|[]]] NE; try congruence; auto. intros x. rewrite andb_comm. apply D12. }
           assert (lift_elem (m_vt m2) a u w te1 <> lift_elem (m_vt m2) a u w te2) as NEQ.
           { intros E. assert (wterm (fun _ => true) (lift_elem (m_vt m2) a u w te1) = wterm (fun _ => true) (lift_elem (m_vt m2) a u w te2)) as Ew by congruence.
             assert (base (tp (lift_elem (m_vt m2) a u w te1)) (fun _ => true) = base (tp (lift_elem (m_vt m2) a u w te2)) (fun _ => true)) as Eb by congruence.
             unfold lift_elem, te1, te2, tp in Eb; simpl in Eb. rewrite !lift_base in Eb. simpl in Eb. unfold lit_sat in Eb.
             assert (Z.ltb 0 (- Z.of_N v) = false) as X0 by (apply Z.ltb_ge; lia). assert (Z.ltb 0 (Z.of_N v) = true) as X5 by (apply Z.ltb_lt; lia).
             rewrite X0, X5 in Eb. discriminate. }
           apply Permutation_length_2_inv in PM as [->| ->]; repeat constructor; apply DJ; simpl; auto.
        -- intros x. rewrite weight_dec_w, <- (rsum_perm _ _ _ PM). simpl. rewrite !lift_elem_wterm. unfold wterm, te1, te2, tp, ts, tw; simpl fst; simpl snd.
           rewrite lit_pos_weight, lit_neg_weight by auto. rewrite D1, D2.
           destruct (x v).
           ++ rewrite <- Wt1. field. lra.
           ++ rewrite <- Wt2. field. lra.
Qed.

(** ** The caches *)
Section Table.
Context (table : list P) (n : nat) (HT : N.of_nat (length table) = (2 ^ N.of_nat n)%N).
Notation tv := (table_value val table).
(** The contexts once the variables at the positions [D] are summed out *)
Definition ctx (D : list (N * N)) (c : N) : Prop := (c < 2 ^ N.of_nat n)%N /\ Forall (fun jv => N.testbit c (fst jv) = false) D.
Fixpoint tsum (D : list (N * N)) (c : N) : R :=
  match D with
  | [] => tv c
  | (j, v) :: D' => tsum D' (N.setbit c j) + tsum D' c
  end.
Definition entry_ok m q D c (o : option nat) (z : P) : Prop := val z = tsum D c /\ stands m q o z (fun x => tv (fill D x c)).
Lemma entry_ok_ext m m' q D c o z : mext 0%N m m' -> entry_ok m q D c o z -> entry_ok m' q D c o z.
Proof. intros X [A B]. split; auto. eapply stands_ext; eauto. Qed.
Record caches (m : mgr) (q : path) (D : list (N * N)) (dom : N -> Prop) (nc : ncache) (zc : zcache) : Prop := {
  ca_nodup : NoDup (map fst nc);
  ca_keys : map fst zc = map fst nc;
  ca_dom : forall c, In c (map fst nc) <-> dom c;
  ca_ok : forall c o, Nlookup c nc = Some o -> exists z, Nlookup c zc = Some z /\ entry_ok m q D c o z;
}.
Lemma cache_loop {A} (key : A -> N) (step : ncache * zcache * mgr -> A -> res (ncache * zcache * mgr))
  (f : N -> mgr -> res (option nat * P * mgr)) m0 q D ks :
  (forall nc zc m k, step (nc, zc, m) k = match Nlookup (key k) nc with
       | Some _ => Ok (nc, zc, m)
       | None => do (x, m1) <- f (key k) m ;; Ok ((key k, fst x) :: nc, (key k, snd x) :: zc, m1)
       end) ->
  (forall k m, In k ks -> mext 0%N m0 m -> Inv 0%N m -> exists o z m', f (key k) m = Ok (o, z, m') /\ Inv 0%N m' /\ mext 0%N m m' /\ entry_ok m' q D (key k) o z) ->
  Inv 0%N m0 ->
  exists nc zc m', foldM step ks ([], [], m0) = Ok (nc, zc, m') /\ Inv 0%N m' /\ mext 0%N m0 m' /\
    caches m' q D (fun c => exists k, In k ks /\ c = key k) nc zc.
Proof.
  intros HS HF I0.
  enough (forall l done nc zc m, ks = done ++ l -> Inv 0%N m -> mext 0%N m0 m -> caches m q D (fun c => exists k, In k done /\ c = key k) nc zc ->
    exists nc' zc' m', foldM step l (nc, zc, m) = Ok (nc', zc', m') /\ Inv 0%N m' /\ mext 0%N m0 m' /\
      caches m' q D (fun c => exists k, In k ks /\ c = key k) nc' zc') as G.
  { apply (G ks [] [] [] m0); auto using mext_refl. split; simpl; auto.
    - constructor.
    - intros c. split; [contradiction|]. intros (k & [] & _).
    - intros c o H. discriminate. }
  induction l as [|k l IH]; intros done nc zc m E I X C.
  - rewrite app_nil_r in E. subst done. exists nc, zc, m. auto.
  - cbn [foldM]. rewrite HS.
    assert (ks = (done ++ [k]) ++ l) as E' by (rewrite <- app_assoc; auto).
    destruct (Nlookup (key k) nc) as [o0|] eqn:EL.
    + cbn [bind]. apply (IH (done ++ [k])); auto. destruct C as [C1 C2 C3 C4]. split; auto.
      intros c. rewrite C3. split.
      * intros (k' & Hk & ->). exists k'. rewrite in_app_iff. auto.
      * intros (k' & Hk & ->). apply in_app_iff in Hk as [Hk|[<-|[]]]; [eauto|]. apply C3.
        destruct (in_dec N.eq_dec (key k) (map fst nc)) as [Hi|Hi]; auto. apply Nlookup_none in Hi. congruence.
    + destruct (HF k m) as (o & z & m1 & Ef & I1 & X1 & EO); auto; [rewrite E; apply in_app_iff; right; left; auto|].
      rewrite Ef. cbn [bind fst snd]. apply (IH (done ++ [k])); auto; [eapply mext_trans; eauto|].
      apply Nlookup_none in EL. destruct C as [C1 C2 C3 C4]. split; cbn [map fst].
      * constructor; auto.
      * congruence.
      * intros c. simpl. rewrite C3. split.
        -- intros [<-|(k' & Hk & ->)]; [exists k|exists k']; rewrite in_app_iff; simpl; auto.
        -- intros (k' & Hk & ->). apply in_app_iff in Hk as [Hk|[<-|[]]]; eauto.
      * intros c o'. rewrite !Nlookup_cons. destruct (N.eqb_spec c (key k)) as [->|NE].
        -- intros E0. injection E0 as <-. eauto.
        -- intros H. destruct (C4 _ _ H) as (z' & Hz & EO'). exists z'. split; auto. eapply entry_ok_ext; eauto.
Qed.
Lemma caches_dom m q D dom dom' nc zc : (forall c, dom c <-> dom' c) -> caches m q D dom nc zc -> caches m q D dom' nc zc.
Proof. intros H [C1 C2 C3 C4]. split; auto. intros c. rewrite C3. auto. Qed.

Lemma tv_at c : (c < 2 ^ N.of_nat n)%N -> exists w, nth_error table (N.to_nat c) = Some w /\ val w = tv c.
Proof.
  intros H. unfold table_value. destruct (nth_error table (N.to_nat c)) as [w|] eqn:E; eauto.
  exfalso. apply nth_error_None in E. lia.
Qed.
Lemma term_loop m v j p : Inv 0%N m -> v <> 0%N -> subtree (m_vt m) p = Some (Leaf v) -> (j < n)%nat ->
  exists nc zc m', foldM (term_step table v (N.of_nat j)) (seq 0 (length table)) ([], [], m) = Ok (nc, zc, m') /\ Inv 0%N m' /\ mext 0%N m m' /\
    caches m' p [(N.of_nat j, v)] (ctx [(N.of_nat j, v)]) nc zc.
Proof.
  intros I NZ HV Hj.
  destruct (cache_loop (fun k => N.clearbit (N.of_nat k) (N.of_nat j)) (term_step table v (N.of_nat j))
    (fun c m => do neg <- get (nth_error table (N.to_nat c)) ;; do pos <- get (nth_error table (N.to_nat (N.setbit c (N.of_nat j)))) ;; term_node v pos neg m)
    m p [(N.of_nat j, v)] (seq 0 (length table))) as (nc & zc & m' & E & I' & X' & C).
  - intros nc zc m0 k. unfold term_step. destruct (Nlookup _ nc); auto.
    destruct (nth_error table (N.to_nat (N.clearbit (N.of_nat k) (N.of_nat j)))); cbn [get bind]; auto.
    destruct (nth_error table (N.to_nat (N.setbit (N.clearbit (N.of_nat k) (N.of_nat j)) (N.of_nat j)))); cbn [get bind]; auto.
  - intros k m0 Hk X0 I0. apply in_seq in Hk. set (c := N.clearbit (N.of_nat k) (N.of_nat j)).
    assert (c < 2 ^ N.of_nat n)%N as Hc by (apply clearbit_lt; lia).
    assert (N.setbit c (N.of_nat j) < 2 ^ N.of_nat n)%N as Hs by (apply setbit_lt; auto; lia).
    destruct (tv_at _ Hc) as (neg & E1 & V1). destruct (tv_at _ Hs) as (pos & E2 & V2). rewrite E1. cbn [get bind]. rewrite E2. cbn [get bind].
    destruct (term_node_spec m0 v p pos neg I0 NZ) as (o & z & m1 & E & I1 & X1 & Ez & S).
    { rewrite (me_vt _ _ _ X0). exact HV. }
    exists o, z, m1. split; auto. split; auto. split; auto. split; [simpl; lra|].
    assert (forall x : inst, (if x v then val pos else val neg) = tv (fill [(N.of_nat j, v)] x c)) as EF by (intros x; simpl; destruct (x v); auto).
    destruct o as [i|]; simpl in *.
    + destruct S as (S1 & t & S2 & S3 & S4 & S5 & S6). split; auto. exists t. do 4 (split; [assumption|]). intros x. rewrite S6. apply EF.
    + destruct S as [S1 S2]. split; auto. intros x. rewrite <- EF. auto.
  - exact I.
  - exists nc, zc, m'. split; auto. split; auto. split; auto. eapply caches_dom; [|exact C]. intros c. simpl. unfold ctx. split.
    + intros (k & Hk & ->). apply in_seq in Hk. split; [apply clearbit_lt; lia|]. constructor; auto. simpl. rewrite testbit_clear, N.eqb_refl. apply andb_false_r.
    + intros [Hc F]. inversion F as [|? ? F1 _]; subst. simpl in F1. exists (N.to_nat c). split; [apply in_seq; lia|].
      rewrite N2Nat.id. symmetry. apply clearbit_id. exact F1.
Qed.

Lemma at_ok {V} k (c : list (N * V)) v : Nlookup k c = Some v -> at_ k c = Ok v.
Proof. intros H. unfold at_. rewrite H. reflexivity. Qed.
Lemma cache_get m q D dom nc zc c : caches m q D dom nc zc -> dom c ->
  exists o z, at_ c nc = Ok o /\ at_ c zc = Ok z /\ entry_ok m q D c o z.
Proof.
  intros [C1 C2 C3 C4] H. apply C3 in H. destruct (Nlookup c nc) as [o|] eqn:E; [|apply Nlookup_none in E; contradiction].
  destruct (C4 _ _ E) as (z & Ez & EO). exists o, z. auto using at_ok.
Qed.
Lemma level_loop m v j u w a l r D nc zc ord k : Inv 0%N m -> v <> 0%N -> subtree (m_vt m) a = Some (VNode l r) ->
  subtree (m_vt m) (u ++ false :: a) = Some (Leaf v) -> (j < n)%nat -> (n <= 31)%nat -> ~ In (N.of_nat j) (map fst D) ->
  (forall i ks, Permutation (ord i ks) ks) ->
  caches m (w ++ true :: a) D (ctx D) nc zc ->
  exists nc' zc' m', level_step ord (k, nc, zc, m) (v, j) = Ok (S k, nc', zc', m') /\ Inv 0%N m' /\ mext 0%N m m' /\
    caches m' a ((N.of_nat j, v) :: D) (ctx ((N.of_nat j, v) :: D)) nc' zc'.
Proof.
  intros I NZ HA HV Hj Hn NI HO C. unfold level_step, loc_bit. cbn [fst snd]. rewrite (proj2 (Nat.ltb_lt j 31)) by lia. cbn [bind].
  set (jj := N.of_nat j) in *.
  assert (forall c, ctx ((jj, v) :: D) c <-> exists k0, In k0 (ord k (map fst nc)) /\ c = N.clearbit k0 jj) as DOM.
  { intros c. split.
    - intros [Hc F]. inversion F as [|? ? F1 F2]; subst. simpl in F1. exists c. split; [|symmetry; apply clearbit_id; auto].
      eapply Permutation_in; [apply Permutation_sym, HO|]. apply (ca_dom _ _ _ _ _ _ C). split; auto.
    - intros (k0 & Hk & ->). apply (Permutation_in _ (HO _ _)), (ca_dom _ _ _ _ _ _ C) in Hk. destruct Hk as [Hk F].
      split; [apply clearbit_lt; auto|]. constructor.
      + simpl. rewrite testbit_clear, N.eqb_refl. apply andb_false_r.
      + eapply Forall_impl; [|exact F]. intros jv Hjv. simpl in *. rewrite testbit_clear, Hjv. reflexivity. }
  destruct (cache_loop (fun k0 => N.clearbit k0 jj) (cond_step nc zc v jj)
    (fun c m => do neg <- at_ c zc ;; do pos <- at_ (N.setbit c jj) zc ;; do sn <- at_ c nc ;; do sp <- at_ (N.setbit c jj) nc ;; cond_node v pos neg sp sn m)
    m a ((jj, v) :: D) (ord k (map fst nc))) as (nc' & zc' & m' & E & I' & X' & C').
  - intros nc0 zc0 m0 k0. unfold cond_step. destruct (Nlookup _ nc0); auto.
    destruct (at_ (N.clearbit k0 jj) zc); cbn [bind]; auto. destruct (at_ (N.setbit (N.clearbit k0 jj) jj) zc); cbn [bind]; auto.
    destruct (at_ (N.clearbit k0 jj) nc); cbn [bind]; auto. destruct (at_ (N.setbit (N.clearbit k0 jj) jj) nc); cbn [bind]; auto.
  - intros k0 m0 Hk X0 I0.
    assert (ctx ((jj, v) :: D) (N.clearbit k0 jj)) as CX by (apply DOM; eauto).
    set (c := N.clearbit k0 jj) in *. destruct CX as [Hc F]. inversion F as [|? ? F1 F2]; subst. simpl in F1.
    assert (ctx D c) as C1 by (split; auto).
    assert (ctx D (N.setbit c jj)) as C2.
    { split; [apply setbit_lt; auto; unfold jj; lia|]. rewrite Forall_forall in *. intros jv Hjv. rewrite clear_set_neq; auto.
      intros E. apply NI. rewrite E. apply in_map, Hjv. }
    destruct (cache_get _ _ _ _ _ _ _ C C1) as (sn & neg & E1 & E2 & V1 & S1).
    destruct (cache_get _ _ _ _ _ _ _ C C2) as (sp & pos & E3 & E4 & V2 & S2).
    rewrite E2. cbn [bind]. rewrite E4. cbn [bind]. rewrite E1. cbn [bind]. rewrite E3. cbn [bind].
    destruct (cond_node_spec m0 v a u w l r pos neg sp sn (fun x => tv (fill D x (N.setbit c jj))) (fun x => tv (fill D x c)) I0 NZ) as (o & z & m1 & E & I1 & X1 & Ez & S).
    { rewrite (me_vt _ _ _ X0). exact HA. }
    { rewrite (me_vt _ _ _ X0). exact HV. }
    { eapply stands_ext; [exact X0|exact S2]. }
    { eapply stands_ext; [exact X0|exact S1]. }
    exists o, z, m1. split; auto. split; auto. split; auto. split; [cbn [tsum]; lra|].
    assert (forall x : inst, (if x v then tv (fill D x (N.setbit c jj)) else tv (fill D x c)) = tv (fill ((jj, v) :: D) x c)) as EF.
    { intros x. cbn [fill]. destruct (x v); auto. }
    destruct o as [i|]; simpl in S |- *.
    + destruct S as (S3 & t & S4 & S5 & S6 & S7 & S8). split; auto. exists t. do 4 (split; [assumption|]). intros x. rewrite S8. apply EF.
    + destruct S as [S3 S4]. split; auto. intros x. specialize (S4 x). rewrite EF in S4. exact S4.
  - exact I.
  - rewrite E. cbn [bind fst snd]. exists nc', zc', m'. split; auto. split; auto. split; auto.
    eapply caches_dom; [|exact C']. intros c. symmetry. apply DOM.
Qed.

(** All the levels: the variables of the spine from right to left *)
Definition run_levels (ord : nat -> list N -> list N) (l : list (N * nat)) (m : mgr) : res (nat * ncache * zcache * mgr) :=
  match l with
  | [] => UB
  | (v, l) :: rest =>
      do loc <- loc_bit l ;;
      do (c, m1) <- foldM (term_step table v loc) (seq 0 (length table)) ([], [], m) ;;
      foldM (level_step ord) rest (0%nat, fst c, snd c, m1)
  end.
Lemma run_levels_snoc ord l x m : l <> [] -> run_levels ord (l ++ [x]) m = (do st <- run_levels ord l m ;; level_step ord st x).
Proof.
  intros NE. destruct l as [|[v j] l]; [congruence|]. unfold run_levels. cbn [app]. destruct (loc_bit j); cbn [bind]; auto.
  destruct (foldM (term_step table v a) (seq 0 (length table)) ([], [], m)) as [[c m1]| | |]; cbn [bind]; auto.
  rewrite foldM_app. destruct (foldM (level_step ord) l (0%nat, fst c, snd c, m1)); cbn [bind foldM]; auto.
  destruct (level_step ord a0 x); reflexivity.
Qed.
Context (scope : list N).   (* reversed, as in the code *)
Notation jv := (fun x : path * N => (N.of_nat (idx scope (snd x)), snd x)).
Lemma levels_spec ord m L q : (forall i ks, Permutation (ord i ks) ks) -> (n <= 31)%nat -> n = length scope -> Inv 0%N m -> spine (m_vt m) L q ->
  Forall (fun x => In (snd x) scope /\ snd x <> 0%N) L -> NoDup (map snd L) ->
  exists k nc zc m', run_levels ord (map (fun x => (snd x, idx scope (snd x))) (rev L)) m = Ok (k, nc, zc, m') /\ Inv 0%N m' /\ mext 0%N m m' /\
    caches m' q (map jv L) (ctx (map jv L)) nc zc.
Proof.
  intros HO Hn En I SP. induction SP as [p v HV|u w a v L HV SP IH]; intros F ND.
  - cbn [rev app map]. unfold run_levels. cbn [snd fst]. inversion F as [|? ? [F1 F2] _]; subst. cbn [snd] in *. pose proof (idx_lt _ _ F1) as Lt.
    unfold loc_bit. rewrite (proj2 (Nat.ltb_lt (idx scope v) 31)) by lia. cbn [bind].
    destruct (term_loop m v (idx scope v) p I F2 HV) as (nc & zc & m' & E & I' & X' & C); [lia|].
    rewrite E. cbn [bind fst snd foldM]. exists 0%nat, nc, zc, m'. auto.
  - inversion F as [|? ? [F1 F2] F3]; subst. cbn [snd] in *. inversion ND as [|? ? NI ND']; subst.
    destruct (IH F3 ND') as (k & nc & zc & m1 & E & I1 & X1 & C1).
    cbn [rev]. rewrite map_app. cbn [map snd]. rewrite run_levels_snoc.
    2: { intros X. apply map_eq_nil in X. apply (f_equal (@rev _)) in X. rewrite rev_involutive in X. simpl in X. subst L. inversion SP. }
    rewrite E. cbn [bind]. destruct (spine_node _ _ _ _ _ _ HV SP) as (l & r & Ha). pose proof (idx_lt _ _ F1) as Lt.
    destruct (level_loop m1 v (idx scope v) u w a l r (map jv L) nc zc ord k) as (nc' & zc' & m2 & E2 & I2 & X2 & C2); auto; try lia.
    + rewrite (me_vt _ _ _ X1). exact Ha.
    + rewrite (me_vt _ _ _ X1). exact HV.
    + rewrite map_map. intros X. apply in_map_iff in X as ([q' v'] & Ev & Hx). cbn [fst snd] in Ev. apply Nat2N.inj in Ev.
      rewrite Forall_forall in F3. destruct (F3 _ Hx) as [G1 _]. apply idx_inj in Ev; auto. cbn [snd] in *. subst v'.
      apply NI, in_map_iff. exists (q', v). auto.
    + exists (S k), nc', zc', m2. split; auto. split; auto. split; auto. eapply mext_trans; eauto.
Qed.
End Table.

(** ** Sums *)
Definition extensional (f : inst -> R) : Prop := forall x y, (forall v, x v = y v) -> f x = f y.
Lemma sum_over_extensional vs f : extensional f -> extensional (sum_over vs f).
Proof.
  intros E. induction vs as [|v vs IH]; intros x y H; simpl; auto. f_equal; apply IH; intros w; unfold upd; destruct (N.eqb w v); auto.
Qed.
Lemma sum_over_perm a b f : extensional f -> Permutation a b -> forall x, sum_over a f x = sum_over b f x.
Proof.
  intros EX PM. induction PM as [|v a b PM IH|v w a|a b c PM1 IH1 PM2 IH2]; intros x; simpl; auto.
  - rewrite !IH. reflexivity.
  - assert (forall b1 b2, v <> w -> sum_over a f (upd (upd x w b1) v b2) = sum_over a f (upd (upd x v b2) w b1)) as SW.
    { intros b1 b2 NE. apply sum_over_extensional; auto. intros u. unfold upd. destruct (N.eqb_spec u v), (N.eqb_spec u w); congruence. }
    destruct (N.eq_dec w v) as [->|NE]; [lra|]. rewrite !(SW _ _) by auto. lra.
  - rewrite IH1. apply IH2.
Qed.
Lemma fill_ext D : forall x y c, (forall v, In v (map snd D) -> x v = y v) -> fill D x c = fill D y c.
Proof.
  induction D as [|[j v] D IH]; intros x y c H; simpl; auto. rewrite (H v) by (simpl; auto). apply IH. intros; apply H; simpl; auto.
Qed.
Lemma tsum_sum table D : NoDup (map snd D) -> forall c x, tsum table D c = sum_over (map snd D) (fun y => table_value val table (fill D y c)) x.
Proof.
  induction D as [|[j v] D IH]; intros ND c x; simpl; auto. simpl in ND. inversion ND as [|? ? NI ND']; subst.
  rewrite (IH ND' _ (upd x v true)), (IH ND' _ (upd x v false)).
  f_equal; apply sum_over_ext; intros y Hy; rewrite (Hy v NI), upd_same; reflexivity.
Qed.
Lemma table_index_ext scope x y : (forall v, In v scope -> x v = y v) -> table_index scope x = table_index scope y.
Proof.
  unfold table_index. assert (forall n, (forall v, In v scope -> x v = y v) ->
    fold_left (fun n v => (2 * n + (if x v then 1 else 0))%N) scope n = fold_left (fun n v => (2 * n + (if y v then 1 else 0))%N) scope n) as G.
  { induction scope as [|v scope IH]; intros n H; cbn [fold_left]; auto.
    rewrite (H v) by (simpl; auto). apply IH. intros; apply H; simpl; auto. }
  apply G.
Qed.
Lemma factor_depends (F : factor P) : depends_on (f_scope F) (factor_value val F).
Proof. intros x y H. unfold factor_value. rewrite (table_index_ext _ x y); auto. Qed.
Lemma depends_extensional vs f : depends_on vs f -> extensional f.
Proof. intros H x y E. apply H. intros v _. auto. Qed.

Lemma fill_index scope0 (L : list (path * N)) x : NoDup scope0 -> (forall v, In v (map snd L) <-> In v scope0) ->
  fill (map (fun x : path * N => (N.of_nat (idx (rev scope0) (snd x)), snd x)) L) x 0%N = table_index scope0 x.
Proof.
  intros ND HI. apply N.bits_inj. intros k. rewrite fill_testbit, N.bits_0. cbn [orb].
  rewrite <- (N2Nat.id k), table_index_testbit. set (kk := N.to_nat k). clearbody kk. clear k.
  assert (NoDup (rev scope0)) as NDr by (apply NoDup_rev; auto).
  destruct (nth_error (rev scope0) kk) as [v|] eqn:E.
  - assert (In v (rev scope0)) as Hv by (eapply nth_error_In; eauto).
    assert (idx (rev scope0) v = kk) as Ei.
    { apply (proj1 (NoDup_nth_error (rev scope0)) NDr); [apply idx_lt; auto|]. rewrite idx_nth by auto. auto. }
    destruct (x v) eqn:Ex.
    + apply existsb_exists. apply in_rev, HI, in_map_iff in Hv as ([q v'] & Ev & Hq). simpl in Ev. subst v'.
      exists (N.of_nat kk, v). split; [|simpl; rewrite N.eqb_refl; auto]. apply in_map_iff. exists (q, v). simpl. rewrite Ei. auto.
    + destruct (existsb _ _) eqn:EB; auto. exfalso. apply existsb_exists in EB as (jv & Hj & EB). apply in_map_iff in Hj as ([q v'] & <- & Hq).
      simpl in EB. apply andb_true_iff in EB as [E1 E2]. apply N.eqb_eq, Nat2N.inj in E1.
      assert (In v' (rev scope0)) as Hv' by (rewrite <- in_rev; apply HI, in_map_iff; exists (q, v'); auto).
      apply idx_nth in Hv'. rewrite E1, E in Hv'. congruence.
  - destruct (existsb _ _) eqn:EB; auto. exfalso. apply existsb_exists in EB as (jv & Hj & EB). apply in_map_iff in Hj as ([q v'] & <- & Hq).
    simpl in EB. apply andb_true_iff in EB as [E1 E2]. apply N.eqb_eq, Nat2N.inj in E1.
    assert (In v' (rev scope0)) as Hv' by (rewrite <- in_rev; apply HI, in_map_iff; exists (q, v'); auto).
    apply idx_nth in Hv'. rewrite E1, E in Hv'. congruence.
Qed.

(** ** compile_factor *)
Lemma stands_lift m q i z f : Inv 0%N m -> stands m q (Some i) z f ->
  exists j m', NormalizePsddNode (Some []) i 0 m = Ok (j, m') /\ Inv 0%N m' /\ mext 0%N m m' /\ stands m' [] (Some j) z f.
Proof.
  intros I (S1 & t & S2 & S3 & S4 & S5 & S6).
  destruct (normalize_spec val HP 0 m q [] i t I) as (j & m' & E & I' & X' & A' & U0 & U1).
  { rewrite app_nil_r. exact S2. }
  exists j, m'. split; auto. split; auto. split; auto. split; auto. eexists. split; [exact A'|].
  split; [apply lift_positive; auto|]. split; [apply lift_deterministic; auto|]. split.
  - destruct q as [|b q]; [rewrite (U0 eq_refl); apply X'; auto|]. apply U1. discriminate.
  - intros x. rewrite lift_weight. auto.
Qed.
Theorem compile_factor_cases ord (F : factor P) m : (forall i ks, Permutation (ord i ks) ks) -> Inv 0%N m -> (forall v, In v (leaves (m_vt m)) -> v <> 0%N) ->
  good_factor (m_vt m) F ->
  (compile_factor ord F m = UB /\ forall x, factor_value val F x = 0) \/
  exists i z m', compile_factor ord F m = Ok (i, z, m') /\ Inv 0%N m' /\ mext 0%N m m' /\ stands m' [] (Some i) z (factor_value val F) /\
    forall x, val z = sum_over (f_scope F) (factor_value val F) x.
Proof.
  intros HO I NZ [G1 G2 G3 G4 G5 G6].
  destruct (serialize_vtree_spec [] (m_vt m)) as (ser & Eser & _). unfold compile_factor. rewrite Eser. cbn [bind].
  assert (NoDup (rev (f_scope F))) as NDr by (apply NoDup_rev; auto).
  rewrite (scope_order (m_vt m) (rev (f_scope F)) NDr ser Eser).
  assert (filter (in_scope (rev (f_scope F))) (lpaths [] (m_vt m)) = filter (in_scope (f_scope F)) (lpaths [] (m_vt m))) as EF.
  { apply filter_ext. intros [q v]. unfold in_scope. simpl. destruct (NmemB v (f_scope F)) eqn:E.
    - apply NmemB_In. rewrite <- in_rev. apply NmemB_In, E.
    - apply NmemB_false. rewrite <- in_rev. apply NmemB_false, E. }
  rewrite EF. set (L := filter (in_scope (f_scope F)) (lpaths [] (m_vt m))).
  assert (forall v, In v (map snd L) <-> In v (f_scope F)) as HI.
  { intros v. unfold L. rewrite in_map_iff. split.
    - intros ([q v'] & <- & H). apply filter_In in H as [_ H]. apply NmemB_In, H.
    - intros H. pose proof (G3 v H) as Hv. rewrite <- (lpaths_leaves (m_vt m) []) in Hv. apply in_map_iff in Hv as ([q v'] & <- & Hq).
      exists (q, v'). split; auto. apply filter_In. split; auto. apply NmemB_In, H. }
  assert (NoDup (map snd L)) as NDL.
  { unfold L. pose proof (wf_leaves _ (proj1 I)) as ND. rewrite <- (lpaths_leaves (m_vt m) []) in ND. clear - ND.
    induction (lpaths [] (m_vt m)) as [|a l IH]; simpl in *; [constructor|]. inversion ND as [|? ? NI ND']; subst.
    destruct (in_scope (f_scope F) a); simpl; auto. constructor; auto. intros H. apply NI. apply in_map_iff in H as (b & E & Hb).
    apply filter_In in Hb as [Hb _]. rewrite <- E. apply in_map, Hb. }
  assert (Permutation (map snd L) (f_scope F)) as PML by (apply NoDup_Permutation; auto).
  destruct (right_linear_spine (m_vt m) (f_scope F) (m_vt m) [] eq_refl G6) as [q SP].
  { destruct (f_scope F) as [|v vs]; [congruence|]. exists v. split; [apply G3|]; simpl; auto. }
  fold L in SP.
  assert (Forall (fun x : path * N => In (snd x) (rev (f_scope F))) (rev L)) as FS.
  { apply Forall_forall. intros x Hx. apply in_rev in Hx. rewrite <- in_rev. apply HI, in_map, Hx. }
  rewrite (locs_map (rev (f_scope F)) (rev L) FS), combine_map.
  rewrite map_length, rev_length, (rev_length (f_scope F)).
  assert (length L = length (f_scope F)) as EL by (rewrite <- (Permutation_length PML), map_length; auto).
  rewrite EL, Nat.eqb_refl. cbn [assert bind].
  destruct (levels_spec (f_table F) (length (f_scope F)) G5 (rev (f_scope F)) ord m L (q ++ [])) as (k & nc & zc & m1 & E1 & I1 & X1 & C1); auto.
  { rewrite rev_length. reflexivity. }
  { apply Forall_forall. intros x Hx. assert (In (snd x) (f_scope F)) as Hs by (apply HI, in_map, Hx). rewrite <- in_rev. auto. }
  rewrite app_nil_r in C1.
  set (ls := map (fun a : path * N => (snd a, idx (rev (f_scope F)) (snd a))) (rev L)) in *. clearbody ls.
  destruct ls as [|[v j] rest]; [discriminate|].
  cbn [run_levels] in E1. destruct (loc_bit j) as [loc| | |]; cbn [bind] in E1 |- *; try discriminate.
  destruct (foldM (term_step (f_table F) v loc) (seq 0 (length (f_table F))) ([], [], m)) as [[c m0]| | |]; cbn [bind] in E1 |- *; try discriminate.
  rewrite E1. cbn [bind]. set (D := map (fun x : path * N => (N.of_nat (idx (rev (f_scope F)) (snd x)), snd x)) L) in *.
  assert (forall c0, ctx (length (f_scope F)) D c0 <-> c0 = 0%N) as DOM.
  { intros c0. split.
    - intros [H1 H2]. apply N.bits_inj. intros b. rewrite N.bits_0. destruct (N.lt_ge_cases b (N.of_nat (length (f_scope F)))) as [Hb|Hb].
      + rewrite Forall_forall in H2. assert (N.to_nat b < length (rev (f_scope F)))%nat as Hb' by (rewrite rev_length; lia).
        destruct (nth_error (rev (f_scope F)) (N.to_nat b)) as [w|] eqn:Ew; [|apply nth_error_None in Ew; lia].
        assert (In w (rev (f_scope F))) as Hw by (eapply nth_error_In; eauto).
        assert (idx (rev (f_scope F)) w = N.to_nat b) as Ei.
        { apply (proj1 (NoDup_nth_error (rev (f_scope F))) NDr); [apply idx_lt; auto|]. rewrite idx_nth by auto. auto. }
        apply in_rev, HI, in_map_iff in Hw as ([qw w'] & Ew' & Hw). simpl in Ew'. subst w'.
        assert (In (b, w) D) as HD by (apply in_map_iff; exists (qw, w); simpl; rewrite Ei, N2Nat.id; auto).
        apply (H2 _ HD).
      + apply (proj1 (lt_pow2 _ _) H1). exact Hb.
    - intros ->. split; [apply N.neq_0_lt_0, N.pow_nonzero; discriminate|]. apply Forall_forall. intros; apply N.bits_0. }
  assert (length nc = 1)%nat as EN.
  { rewrite <- (map_length fst). rewrite (Permutation_length (l' := [0%N])); auto. apply NoDup_Permutation.
    - apply C1.
    - repeat constructor. auto.
    - intros c0. rewrite (ca_dom _ _ _ _ _ _ _ C1), DOM. simpl. split; auto. intros [H|[]]; auto. }
  rewrite EN. cbn [Nat.eqb assert bind].
  destruct (cache_get _ _ _ _ _ _ _ _ C1 (proj2 (DOM 0%N) eq_refl)) as (o & z & Eo & Ez & Vz & ST). rewrite Eo. cbn [bind]. rewrite Ez. cbn [bind].
  assert (forall x, table_value val (f_table F) (fill D x 0%N) = factor_value val F x) as EV.
  { intros x. unfold factor_value. unfold D. rewrite fill_index; auto. }
  destruct o as [i|].
  - right. cbn [get bind]. destruct (stands_lift m1 q i z (fun x => table_value val (f_table F) (fill D x 0%N)) I1 ST) as (i2 & m2 & E2 & I2 & X2 & S2). rewrite E2. cbn [bind].
    exists i2, z, m2. split; auto. split; auto. split; [eapply mext_trans; eauto|]. split.
    + destruct S2 as (S1 & t & A1 & A2 & A3 & A4 & A5). split; auto. exists t. do 4 (split; [assumption|]). intros x. rewrite A5. apply EV.
    + intros x. rewrite Vz. rewrite (tsum_sum _ D) with (x := x).
      * assert (map snd D = map snd L) as EDL by (unfold D; rewrite map_map; reflexivity). rewrite EDL.
        rewrite (sum_over_ext' _ _ (factor_value val F)) by (intros; apply EV).
        apply sum_over_perm; auto. eapply depends_extensional, factor_depends.
      * unfold D. rewrite map_map. exact NDL.
  - left. cbn [get bind]. split; auto. intros x. destruct ST as [_ ST]. rewrite <- EV. apply ST.
Qed.
End Compile.
