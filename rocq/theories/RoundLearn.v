(** Learned and sampled parameters in floating point (C63, C64). *)
From Coq Require Import Reals Lra Psatz.
From Verif Require Import Base Param ParamProofs Vtree VtreeProofs Spec SpecProofs Heap Manager HeapProofs SerProofs RepProofs LoadProofs
  MulProofs ReplayProofs TreeProofs Query QueryProofs MpeProofs SampleProofs Learn LearnProofs CountProofs Round RoundProofs RoundEval RoundMarg RoundRep RoundMul.
Local Open Scope R_scope.

Lemma rnear_trans c d dl t0 : forall t1 t2, rnear c dl t0 t1 -> rnear d dl t1 t2 -> rnear (c + d) dl t0 t2.
Proof.
  induction t0 as [l|v a b|es IH] using ptree_ind2; intros t1 t2 H1 H2.
  - destruct t1; simpl in H1; try contradiction. subst. destruct t2; simpl in H2; try contradiction. simpl. auto.
  - destruct t1 as [|v1 a1 b1|]; simpl in H1; try contradiction. destruct t2 as [|v2 a2 b2|]; simpl in H2; try contradiction.
    destruct H1 as (-> & C1 & S0 & S1 & Q1), H2 as (-> & C2 & _ & S2 & Q2). simpl. split; auto. split; [eapply close_trans; eauto|]. auto.
  - apply rnear_dec_inv in H1 as (es1 & -> & F1). apply rnear_dec_inv in H2 as (es2 & -> & F2). apply rnear_dec.
    revert es2 F2. induction F1 as [|e e1 es es1 (A1 & B1 & C1) F1 IHF]; intros es2 F2; inversion F2 as [|? e2 ? es2' (A2 & B2 & C2) F2']; subst; constructor.
    + inversion IH as [|? ? [I1 I2] _]; subst. split; [eapply I1; eauto|]. split; [eapply I2; eauto|]. eapply close_trans; eauto.
    + inversion IH; subst. apply IHF; auto.
Qed.
Lemma perm_F2_l {A B} (Q : A -> B -> Prop) l l' : Permutation l l' -> forall k', Forall2 Q l k' -> exists k, Permutation k' k /\ Forall2 Q l' k.
Proof. intros Pm k' F. destruct (Forall2_perm _ _ _ Pm _ F) as (k & A1 & A2). eauto. Qed.
Lemma perm_F2_r {A B} (Q : A -> B -> Prop) (k k' : list B) : Permutation k k' -> forall l, Forall2 Q l k -> exists l', Permutation l l' /\ Forall2 Q l' k'.
Proof.
  intros Pm l F. destruct (perm_F2_l (fun b a => Q a b) k k' Pm l) as (l' & A1 & A2).
  - clear Pm. induction F; constructor; auto.
  - exists l'. split; auto. clear - A2. induction A2; constructor; auto.
Qed.

Section RLearn.
Context {P : pops} (val : P -> R) (B e d dl : R) (HP : pround P val B e d) (HC : pcompare P val B d) (DL : 0 <= dl).
Notation heap := (heap P). Notation mgr := (mgr P). Notation node := (node P).
Notation Rep := (Rep val). Notation InvF := (InvF val B dl). Notation rnear_at := (rnear_at val d dl).

(** [f]: the exact parameters; the copy of a node stands for a tree near one whose parameters are the computed ones, and those are near the exact ones *)
Definition rimageR (c : R) (f : nat -> list R) (hs : heap) fl (m : mgr) (ud : udata) (i : nat) : Prop :=
  exists j p t0 t1, ud i = Some j /\ vt_of hs i = Some p /\ relab f hs i t0 /\ rnear c dl t0 t1 /\ rnear_at m j p t1 /\ flag_of (m_heap m) j = Some fl /\ In j (m_live m).
Lemma relab_stepR c f (hs : heap) fl L L1 i L2 ud (m : mgr) ws fs nd :
  heap_ok (m_vt m) hs -> topo hs L -> L = L1 ++ i :: L2 -> InvF fl m -> (forall k, In k L2 -> rimageR c f hs fl m ud k) ->
  nth_error hs i = Some nd -> Forall2 (fun x w => close c x (val w)) fs ws ->
  match n_body nd with BLit _ => True | BTop _ _ _ => (exists a b, ws = [a; b] /\ top_fit B dl (val a) (val b)) /\ dist fs
    | BDec es => length ws = length es /\ Forall (fun w => range B (val w)) ws end ->
  exists j m', relab_step hs fl (ud, m) i ws = Ok (set_ud ud i (Some j), m') /\ InvF fl m' /\ mext fl m m' /\
    (forall k, In k (i :: L2) -> rimageR c (set_at f i fs) hs fl m' (set_ud ud i (Some j)) k).
Proof.
  intros HO (ND & PF & HL) EL I IM En HF HW.
  pose proof (NoDup_app_nin L1 L2 i ltac:(rewrite <- EL; exact ND)) as NI.
  assert (forall k t, In k L2 -> relab f hs k t -> relab (set_at f i fs) hs k t) as RX.
  { intros k t Hk HR. eapply relab_ext; [|exact HR]. intros k' Rk. rewrite set_at_other; auto. intros ->. apply NI.
    apply (suffix_reach hs L (L1 ++ [i]) L2 k); auto. rewrite <- app_assoc. exact EL. }
  assert (forall j (m' : mgr) k t0 t1, mext fl m m' -> In k (i :: L2) ->
    relab (set_at f i fs) hs i t0 -> rnear c dl t0 t1 -> rnear_at m' j (n_vt nd) t1 -> flag_of (m_heap m') j = Some fl -> In j (m_live m') ->
    rimageR c (set_at f i fs) hs fl m' (set_ud ud i (Some j)) k) as FIN.
  { intros j m' k t0 t1 X Hk LD NR A FL LV. destruct Hk as [<-|Hk].
    - exists j, (n_vt nd), t0, t1. unfold set_ud. rewrite Nat.eqb_refl. unfold vt_of. rewrite En. auto 12.
    - destruct (IM k Hk) as (j' & p & u0 & u1 & H1 & H2 & H3 & H4 & H5 & H6 & H7). exists j', p, u0, u1.
      split. { unfold set_ud. destruct (Nat.eqb k i) eqn:E; auto. apply Nat.eqb_eq in E. subst. contradiction. }
      split; auto. split; auto. split; auto. split; [eapply rnear_at_ext; eauto|]. split; [eapply flag_of_ext; eauto|apply (me_live _ _ _ X); auto]. }
  unfold relab_step, node_of. rewrite En. cbn [get bind]. pose proof (HO _ _ En) as NO. unfold node_ok in NO.
  destruct (n_body nd) as [l|v pt pf|es] eqn:Eb.
  - destruct (literal_rnear val B d dl HC fl m l (n_vt nd) I NO) as (j & m' & E1 & I' & X & LV & A & FL).
    rewrite E1. cbn [bind]. exists j, m'. do 3 (split; auto). intros k Hk. apply (FIN j m' k (TLit l) (TLit l)); auto; [econstructor; eauto|reflexivity].
  - destruct HW as ((a & b & -> & TO) & D1 & D2).
    destruct (top_rnear val B d dl HC fl m v a b (n_vt nd) I NO TO) as (j & m' & nd' & pt' & pf' & E1 & I' & X & LV & A & FL & _).
    inversion HF as [|x ? fs1 ? C1 HF1]; subst. inversion HF1 as [|y ? fs2 ? C2 HF2]; subst. inversion HF2; subst.
    rewrite E1. cbn [bind]. exists j, m'. do 3 (split; auto). intros k Hk. apply (FIN j m' k (TTop v x y) (TTop v (val a) (val b))); auto.
    + econstructor; eauto. rewrite set_at_same. reflexivity.
    + simpl in D2. destruct TO as (T1 & T2 & _ & _ & T3). simpl. split; auto. split; auto. split; [|auto].
      replace (x + y) with 1 by lra. apply close_refl; lra.
  - destruct HW as [HW HR]. destruct NO as (NE & (l & r & HV) & FE).
    assert (forall e, In e es -> In (e_prime e) L2 /\ In (e_sub e) L2) as CH.
    { intros f' He. split; apply (PF L1 i L2 EL nd); auto; apply in_children; eauto 10. }
    assert (exists es1 tes0 tes1, mapM (fun e => get (ud (e_prime e))) es = Ok (map e_prime es1) /\
              mapM (fun e => get (ud (e_sub e))) es = Ok (map e_sub es1) /\ map e_param es1 = ws /\ map tw tes0 = fs /\
              Forall2 (fun e te => relab (set_at f i fs) hs (e_prime e) (tp te) /\ relab (set_at f i fs) hs (e_sub e) (ts te)) es tes0 /\
              Forall2 (renear c dl) tes0 tes1 /\ Forall2 (elem_rnear val d dl m (n_vt nd)) es1 tes1) as (es1 & tes0 & tes1 & E1 & E2 & E3 & E4 & F0 & F1 & F2).
    { clear Eb NE FIN HV HR. remember (set_at f i fs) as f' eqn:Ef. clear Ef. revert ws fs HF HW. induction es as [|g es IH]; intros ws fs HF HW.
      - destruct ws; [|discriminate]. inversion HF; subst. exists [], [], []. repeat (split; [reflexivity|]). repeat split; constructor.
      - destruct ws as [|w ws]; [discriminate|]. inversion HF as [|x ? fs' ? Cx HF']; subst. inversion FE as [|? ? (_ & _ & V1 & V2) FE']; subst.
        destruct (IH FE') with (ws := ws) (fs := fs') as (es1 & tes0 & tes1 & E1 & E2 & E3 & E4 & F0 & F1 & F2); auto. { intros; apply CH; right; auto. }
        destruct (CH g (or_introl eq_refl)) as [C1 C2].
        destruct (IM _ C1) as (j1 & p1 & a0 & a1 & U1 & W1 & A1 & N1 & R1 & _). destruct (IM _ C2) as (j2 & p2 & b0 & b1 & U2 & W2 & A2 & N2 & R2 & _).
        assert (p1 = false :: n_vt nd) as -> by congruence. assert (p2 = true :: n_vt nd) as -> by congruence.
        exists (MkE j1 j2 w :: es1), ((a0, b0, x) :: tes0), ((a1, b1, val w) :: tes1). cbn [mapM map e_prime e_sub e_param].
        rewrite U1, U2. cbn [get bind]. rewrite E1, E2. cbn [bind]. do 2 (split; auto). split; [congruence|]. split; [cbn [map]; rewrite E4; reflexivity|].
        split; [constructor; auto|]. split; constructor; auto; (split; [assumption|split; [assumption|unfold tw; simpl; auto]]). }
    rewrite E1. cbn [bind]. rewrite E2. cbn [bind]. rewrite <- E3.
    assert (es1 <> []) as NE1. { intros ->. simpl in E3. subst ws. destruct es; [congruence|discriminate]. }
    assert (Forall (fun e0 => range B (val (e_param e0))) es1) as RE. { rewrite <- E3 in HR. rewrite Forall_map in HR. exact HR. }
    destruct (conformed_rnear val B d dl HC fl m (n_vt nd) l r es1 tes1 I HV NE1 F2 RE) as (j & m' & tes2 & E5 & I' & X & LV & PM & A & FL).
    rewrite E5. cbn [bind]. exists j, m'. do 3 (split; auto). destruct (perm_F2_r _ _ _ PM _ F1) as (tes0' & PM0 & F3).
    intros k Hk. apply (FIN j m' k (TDec tes0') (TDec tes2)); auto.
    + eapply rl_dec; eauto. rewrite set_at_same. exact E4.
    + apply rnear_dec. exact F3.
Qed.

(** ** Normalizing a list of parameters *)
Lemma fold_close (xs : list R) (ws : list P) k M : Forall2 (fun x w => close (INR k * e) x (val w)) xs ws -> (forall x, In x xs -> range M x) ->
  M + ln (INR (length xs)) + INR (k + length xs) * e <= B ->
  close (INR (k + length xs) * e) (rsum (fun x => x) xs) (val (fold_left padd ws pzero)).
Proof.
  intros F R HB. assert (length ws = length xs) as LE by (clear - F; induction F; simpl; congruence).
  pose proof (rd_nonneg HP) as V0. pose proof (rd_e HP) as E0.
  pose proof (sum_close val B e d HP ws xs (fun x => x) (fun w => w) (M + ln (INR (length xs))) k pzero 0 0) as SC.
  rewrite LE, Rplus_0_l, Nat.add_0_r in SC. apply SC; auto.
  - clear - F. induction F; constructor; auto.
  - rewrite (rd_zero HP). apply close_refl; [apply (ke_nonneg val B e d HP)|lra].
  - apply range_0.
  - intros l1 l2 EL. rewrite Rplus_0_l. apply range_sum; [rewrite EL, app_length; lia|]. intros x Hx. apply R. rewrite EL. apply in_app_iff. auto.
  - intros x Hx. apply (range_weaken M); [pose proof (ln_len xs); lra|auto].
Qed.
Lemma close_div c c' x y z w : 0 <= x -> 0 <= y -> 0 < z -> 0 < w -> close c x y -> close c' z w -> close (c + c') (x / z) (y / w).
Proof.
  intros X Y Z W C1 [D1 D2]. unfold Rdiv. assert (0 < / z) by (apply Rinv_0_lt_compat; auto). assert (0 < / w) by (apply Rinv_0_lt_compat; auto). apply close_mul; auto; try lra. split.
  - apply Rmult_le_reg_l with (w * z); [nra|]. replace (w * z * / w) with z by (field; lra). replace (w * z * (exp c' * / z)) with (exp c' * w) by (field; lra). auto.
  - apply Rmult_le_reg_l with (w * z); [nra|]. replace (w * z * / z) with w by (field; lra). replace (w * z * (exp c' * / w)) with (exp c' * z) by (field; lra). auto.
Qed.
Lemma scale_close (xs : list R) (ws : list P) z k M : xs <> [] -> Forall2 (fun x w => close (INR k * e) x (val w)) xs ws -> (forall x, In x xs -> 0 < x /\ range M x) ->
  0 <= M -> close (INR (k + length xs) * e) (rsum (fun x => x) xs) (val z) -> 2 * M + ln (INR (length xs)) + INR (2 * k + length xs + 1) * e <= B ->
  Forall2 (fun x w => close (INR (2 * k + length xs + 1) * e) x (val w)) (map (fun x => x / rsum (fun x => x) xs) xs) (map (fun w => pdiv w z) ws) /\
  Forall (fun w => 0 < val w /\ range B (val w)) (map (fun w => pdiv w z) ws) /\ dist (map (fun x => x / rsum (fun x => x) xs) xs).
Proof.
  intros NE F R M0 CZ HB. pose proof (rd_nonneg HP) as V0. pose proof (rd_e HP) as E0. set (T := rsum (fun x => x) xs) in *.
  assert (0 < T) as T0. { apply rsum_pos; [intros x Hx; left; apply R; auto|]. destruct xs as [|x xs]; [congruence|]. exists x. split; [left; auto|]. apply R. left; auto. }
  assert (range (M + ln (INR (length xs))) T) as RT. { apply range_sum; auto. intros x Hx. apply R; auto. }
  assert (INR (2 * k + length xs + 1) * e = INR k * e + INR (k + length xs) * e + e) as KE.
  { replace (2 * k + length xs + 1)%nat with (k + (k + length xs) + 1)%nat by lia. rewrite !(ke_plus e). simpl INR. ring. }
  pose proof (ke_nonneg val B e d HP k) as K0. pose proof (ke_nonneg val B e d HP (k + length xs)) as K1. pose proof (ln_len xs) as L0.
  assert (0 < val z) as Z0 by (apply (close_pos _ _ _ CZ); auto).
  assert (range B (val z)) as RZ. { eapply range_weaken; [|eapply range_close; [exact RT|exact CZ|auto]]. lra. }
  assert (forall x w, In x xs -> close (INR k * e) x (val w) -> close (INR (2 * k + length xs + 1) * e) (x / T) (val (pdiv w z)) /\ 0 < val (pdiv w z) /\ range B (val (pdiv w z))) as K.
  { intros x w Hx C. destruct (R x Hx) as [X0 RX]. assert (0 < val w) as W0 by (apply (close_pos _ _ _ C); auto).
    assert (close (INR k * e + INR (k + length xs) * e) (x / T) (val w / val z)) as C1 by (apply close_div; auto; lra).
    pose proof (range_div _ _ _ _ RX RT ltac:(lra)) as RQ.
    assert (close (INR (2 * k + length xs + 1) * e) (x / T) (val (pdiv w z))) as C2.
    { rewrite KE. eapply close_trans; [exact C1|]. apply (rd_div HP); auto; try lra.
      - eapply range_weaken; [|eapply range_close; [exact RX|exact C|auto]]. lra.
      - eapply range_weaken; [|eapply range_close; [exact RQ|exact C1|]]; [lra|]. left. apply Rdiv_lt_0_compat; auto. }
    split; auto. split.
    - apply (close_pos _ _ _ C2). apply Rdiv_lt_0_compat; auto.
    - eapply range_weaken; [|eapply range_close; [exact RQ|exact C2|auto]]. lra. }
  assert (Forall2 (fun x w => close (INR (2 * k + length xs + 1) * e) (x / T) (val (pdiv w z)) /\ 0 < val (pdiv w z) /\ range B (val (pdiv w z))) xs ws) as G.
  { eapply Forall2_impl_in; [|exact F]. intros x w Hx _ C. apply K; auto. }
  split; [|split].
  - clear - G. clearbody T. revert G. generalize (INR (2 * k + length xs + 1) * e). intros c G. induction G as [|x w l l' (A & _) G IH]; simpl; constructor; auto.
  - apply Forall_map. clear - G. revert G. generalize (INR (2 * k + length xs + 1) * e). intros c G. induction G as [|x w l l' (_ & A & A') G IH]; constructor; auto.
  - split.
    + apply Forall_map. apply Forall_forall. intros x Hx. apply Rdiv_lt_0_compat; auto. apply R; auto.
    + rewrite rsum_map. rewrite (rsum_ext _ (fun x => x * / T)) by reflexivity. rewrite rsum_scal_r. fold T. field. lra.
Qed.

(** ** LearnPsddParameters *)
Context (w : nat) (M : R) (alpha : P) (HK : INR (w + 5) * e <= dl) (A1 : exp (- M) <= val alpha).
Lemma rn_nonneg n : 0 <= rn n.
Proof. unfold rn. apply (IZR_le 0). lia. Qed.
Lemma count_range n : rn n + val alpha <= exp M -> 0 <= M /\ range M (rn n) /\ range M (rn n + val alpha) /\ range M (val alpha).
Proof.
  intros H. pose proof (rn_nonneg n) as N0. pose proof (exp_pos (- M)) as E0. assert (0 <= M) as M0.
  { destruct (Rle_dec 0 M); auto. assert (exp M < exp (- M)) by (apply exp_increasing; lra). lra. }
  split; auto. split; [|split; right; split; lra]. unfold rn in *. destruct (Z.eq_dec (Z.of_N n) 0) as [->|NZ]; [left; reflexivity|right].
  split; [|lra]. apply Rle_trans with 1; [|apply (IZR_le 1); lia]. rewrite <- exp_0. apply exp_mono. lra.
Qed.
Lemma count_close n : rn n + val alpha <= exp M -> M + 2 * e <= B -> close (INR 2 * e) (rn n + val alpha) (val (padd (pnat n) alpha)).
Proof.
  intros H HB. destruct (count_range n H) as (M0 & R1 & R2 & R3). pose proof (rd_nonneg HP) as V0. pose proof (rd_e HP) as E0.
  assert (close e (rn n) (val (pnat n))) as C1. { apply (rd_nat HP). apply (range_weaken M); [lra|exact R1]. }
  assert (close e (rn n + val alpha) (val (pnat n) + val alpha)) as C2 by (apply close_add; auto; apply close_refl; auto).
  replace (INR 2 * e) with (e + e) by (simpl; ring). eapply close_trans; [exact C2|]. apply (rd_add HP).
  - eapply range_weaken; [|eapply range_close; [exact R1|exact C1|auto]]. lra.
  - apply (range_weaken M); [lra|auto].
  - eapply range_weaken; [|eapply range_close; [exact R2|exact C2|]]; [lra|]. pose proof (V0 (pnat n)). pose proof (V0 alpha). lra.
Qed.
Lemma smooth_close (ns : list N) z : ns <> [] -> (length ns <= w)%nat -> Forall (fun n => rn n + val alpha <= exp M) ns ->
  2 * M + ln (INR w) + INR (w + 5) * e <= B ->
  close (INR (2 + length ns) * e) (rsum (fun x => x) (map (fun n => rn n + val alpha) ns)) (val z) ->
  let ws := map (fun u => pdiv u z) (map (fun n => padd (pnat n) alpha) ns) in
  Forall2 (fun x u => close (INR (w + 5) * e) x (val u)) (freqs (val alpha) ns) ws /\ Forall (fun u => 0 < val u /\ range B (val u)) ws /\ dist (freqs (val alpha) ns).
Proof.
  intros NE LW F HB CZ ws. set (xs := map (fun n => rn n + val alpha) ns) in *. pose proof (rd_e HP) as E0. pose proof (rd_nonneg HP) as V0.
  assert (length xs = length ns) as LX by apply map_length. rewrite Forall_forall in F.
  assert (0 <= M) as M0. { destruct ns as [|n ns]; [congruence|]. apply (count_range n). apply F. left; auto. }
  assert (freqs (val alpha) ns = map (fun x => x / rsum (fun x => x) xs) xs) as EF. { unfold freqs, xs. rewrite map_map, rsum_map. reflexivity. }
  assert (INR (2 * 2 + length xs + 1) * e <= INR (w + 5) * e) as KL by (apply (ke_le val B e d HP); lia).
  assert (ln (INR (length xs)) <= ln (INR w)) as LL.
  { destruct xs as [|x xs]; [simpl in LX; destruct ns; [congruence|discriminate]|]. apply ln_mono; [apply lt_0_INR; simpl; lia|apply le_INR; lia]. }
  assert (0 <= ln (INR (length xs))) as L0 by apply ln_len.
  assert (INR 5 * e <= INR (w + 5) * e) as K5 by (apply (ke_le val B e d HP); lia). assert (INR 5 = 5) as E5 by (simpl; lra). rewrite E5 in K5.
  destruct (scale_close xs (map (fun n => padd (pnat n) alpha) ns) z 2 M) as (G1 & G2 & G3); auto.
  - intros E. apply NE. apply map_eq_nil in E. auto.
  - unfold xs. assert (forall l, incl l ns -> Forall2 (fun x u => close (INR 2 * e) x (val u)) (map (fun n => rn n + val alpha) l) (map (fun n => padd (pnat n) alpha) l)) as K; [|apply K, incl_refl].
    induction l as [|n l IH]; intros I; simpl; constructor; [|apply IH; intros ? ?; apply I; right; auto].
    apply count_close; [apply F, I; left; auto|]. lra.
  - intros x Hx. unfold xs in Hx. apply in_map_iff in Hx as (n & <- & Hn). pose proof (rn_nonneg n). pose proof (exp_pos (- M)). split; [lra|]. apply count_range. apply F; auto.
  - rewrite LX. exact CZ.
  - lra.
  - rewrite EF. split; [|split; auto]. unfold ws. clear - G1 KL V0 G3. destruct G3 as [G3 _]. revert G1 G3.
    generalize (map (fun x => x / rsum (fun x => x) xs) xs) as fs. intros fs G1 G3. eapply Forall2_impl_in; [|exact G1].
    intros x u Hx _ C. rewrite Forall_forall in G3. eapply close_weaken; eauto. left. apply G3; auto.
Qed.
Lemma learn_paramsR (dc : counts) i (nd : node) : length (dc i) = arity nd -> (arity nd <= w)%nat -> Forall (fun n => rn n + val alpha <= exp M) (dc i) ->
  match n_body nd with BDec es => es <> [] | _ => True end -> 2 * M + ln (INR w) + INR (w + 5) * e <= B ->
  exists ws, learn_params dc alpha i nd = Ok ws /\ Forall2 (fun x u => close (INR (w + 5) * e) x (val u)) (freqs (val alpha) (dc i)) ws /\
    match n_body nd with
    | BLit _ => True
    | BTop _ _ _ => (exists a b, ws = [a; b] /\ top_fit B dl (val a) (val b)) /\ dist (freqs (val alpha) (dc i))
    | BDec es => (length ws = length es /\ Forall (fun u => range B (val u)) ws) /\ dist (freqs (val alpha) (dc i))
    end.
Proof.
  unfold arity, learn_params. intros EL LW F NE HB. pose proof (rd_e HP) as E0. pose proof (rd_nonneg HP) as V0. destruct (n_body nd) as [l|v pt pf|es].
  - exists []. destruct (dc i); [|discriminate]. split; auto. split; [constructor|auto].
  - destruct (dc i) as [|a [|b [|c ns]]]; try discriminate. cbn [nth_error get bind].
    inversion F as [|? ? Fa F']; subst. inversion F' as [|? ? Fb _]; subst.
    destruct (count_range a Fa) as (M0 & _ & Ra & _). destruct (count_range b Fb) as (_ & _ & Rb & _).
    assert (range (M + ln (INR 2)) (rn a + val alpha + (rn b + val alpha))) as Rab.
    { pose proof (range_sum M (fun x => x) [rn a + val alpha; rn b + val alpha] 2 (le_n _)) as Q. simpl rsum in Q. rewrite Rplus_0_r in Q. apply Q. intros x [<-|[<-|[]]]; auto. }
    assert (0 <= ln (INR 2) <= ln (INR w)) as [L0 L1]. { split; [apply (ln_len [0; 0])|]. apply ln_mono; [apply lt_0_INR; lia|apply le_INR; auto]. }
    assert (INR 5 * e <= INR (w + 5) * e) as K5 by (apply (ke_le val B e d HP); lia). assert (INR 5 = 5) as E5 by (simpl; lra). rewrite E5 in K5.
    pose proof (count_close a Fa ltac:(lra)) as Ca. pose proof (count_close b Fb ltac:(lra)) as Cb.
    assert (INR 2 = 2) as E2 by (simpl; lra). rewrite E2 in Ca, Cb. pose proof (close_add _ _ _ _ _ Ca Cb) as Cs.
    destruct (smooth_close [a; b] (padd (padd (pnat a) alpha) (padd (pnat b) alpha))) as (G1 & G2 & G3); auto; [discriminate| |].
    { simpl length. replace (INR (2 + 2) * e) with (2 * e + e + e) by (simpl; ring). simpl rsum. rewrite Rplus_0_r. apply (close_weaken (2 * e + e)); [lra| |auto|].
      - pose proof (range_nonneg _ _ Rab). auto.
      - eapply close_trans; [exact Cs|]. apply (rd_add HP).
        + eapply range_weaken; [|eapply range_close; [exact Ra|exact Ca|auto]]. lra.
        + eapply range_weaken; [|eapply range_close; [exact Rb|exact Cb|auto]]. lra.
        + eapply range_weaken; [|eapply range_close; [exact Rab|exact Cs|]]; [lra|]. pose proof (V0 (padd (pnat a) alpha)). pose proof (V0 (padd (pnat b) alpha)). lra. }
    cbn [map] in G1, G2. eexists. split; [reflexivity|]. split; [exact G1|]. split; [|exact G3]. do 2 eexists. split; [reflexivity|].
    inversion G2 as [|? ? [P1 R1] G2']; subst. inversion G2' as [|? ? [P2 R2] _]; subst. split; auto. split; auto. split; auto. split; auto.
    destruct G3 as [_ G3]. unfold freqs in G1, G3. cbn [map] in G1, G3. inversion G1 as [|? ? ? ? D1 G1']; subst. inversion G1' as [|? ? ? ? D2 _]; subst.
    pose proof (close_add _ _ _ _ _ D1 D2) as D3. match type of D3 with close _ ?u _ => replace u with 1 in D3 by (simpl rsum in G3 |- *; lra) end.
    apply close_sym. eapply close_weaken; [exact HK|lra| |exact D3]. lra.
  - rewrite <- EL, nth_seq. cbn [bind]. exists (smooth alpha (dc i)). split; auto.
    assert (dc i <> []) as N0 by (intros E; rewrite E in EL; destruct es; [congruence|discriminate]).
    destruct (smooth_close (dc i) (fold_left padd (map (fun n => padd (pnat n) alpha) (dc i)) pzero)) as (G1 & G2 & G3); auto; [lia| |].
    { set (xs := map (fun n => rn n + val alpha) (dc i)). assert (length xs = length (dc i)) as LX by apply map_length. rewrite <- LX.
      rewrite Forall_forall in F. assert (0 <= M) as M0. { destruct (dc i) as [|n ns] eqn:Ed; [congruence|]. apply (count_range n). apply F. left; auto. }
      assert (INR 5 * e <= INR (w + 5) * e) as K5 by (apply (ke_le val B e d HP); lia). assert (INR 5 = 5) as E5 by (simpl; lra). rewrite E5 in K5.
      assert (INR (2 + length xs) * e <= INR (w + 5) * e) as K6 by (apply (ke_le val B e d HP); lia).
      assert (0 <= ln (INR (length xs)) <= ln (INR w)) as [L0 L1].
      { split; [apply ln_len|]. apply ln_mono; [apply lt_0_INR; rewrite LX; destruct (dc i); [congruence|simpl; lia]|apply le_INR; lia]. }
      apply (fold_close xs _ 2 M).
      - unfold xs. clear - F HP A1 HB M0 K5 L0 L1. assert (forall l, incl l (dc i) -> Forall2 (fun x u => close (INR 2 * e) x (val u)) (map (fun n => rn n + val alpha) l) (map (fun n => padd (pnat n) alpha) l)) as K; [|apply K, incl_refl].
        induction l as [|n l IH]; intros I; simpl; constructor; [|apply IH; intros ? ?; apply I; right; auto].
        apply count_close; [apply F, I; left; auto|]. pose proof (rd_e HP). lra.
      - intros x Hx. unfold xs in Hx. apply in_map_iff in Hx as (n & <- & Hn). apply count_range. apply F; auto.
      - lra. }
    split; [exact G1|]. split; [|exact G3]. split; [unfold smooth; rewrite !map_length; auto|]. unfold smooth. eapply Forall_impl; [|exact G2]. simpl. tauto.
Qed.
Lemma learn_passR (hs : heap) fl L ud (m : mgr) (dc : counts) : heap_ok (m_vt m) hs -> topo hs L -> InvF fl m ->
  2 * M + ln (INR w) + INR (w + 5) * e <= B ->
  (forall i nd, In i L -> nth_error hs i = Some nd -> length (dc i) = arity nd /\ (arity nd <= w)%nat /\ Forall (fun n => rn n + val alpha <= exp M) (dc i)) ->
  let f := fun i => freqs (val alpha) (dc i) in
  exists ud' m', foldM (learn_step hs dc alpha fl) (rev L) (ud, m) = Ok (ud', m') /\
    InvF fl m' /\ mext fl m m' /\ (forall i, In i L -> rimageR (INR (w + 5) * e) f hs fl m' ud' i) /\ (forall i, ~ In i L -> ud' i = ud i) /\
    (forall i nd, In i L -> nth_error hs i = Some nd -> match n_body nd with BLit _ => True | _ => dist (f i) end).
Proof.
  intros HO TP I HB HD f.
  destruct (bottom_up (learn_step hs dc alpha fl) (fun L2 st =>
    InvF fl (snd st) /\ mext fl m (snd st) /\ (forall i, In i L2 -> rimageR (INR (w + 5) * e) f hs fl (snd st) (fst st) i) /\ (forall i, ~ In i L2 -> fst st i = ud i) /\
    (forall i nd, In i L2 -> nth_error hs i = Some nd -> match n_body nd with BLit _ => True | _ => dist (f i) end)) L (ud, m))
    as ([ud' m'] & E & H1 & H2 & H3 & H4 & H5).
  - intros L1 i L2 [ud0 m0] EL (H3 & H4 & H5 & H6 & H7). cbn [fst snd] in *.
    pose proof TP as (ND & PF & HL).
    assert (i < length hs)%nat as Hi by (apply HL; rewrite EL; apply in_elt).
    apply nth_error_Some in Hi. destruct (nth_error hs i) as [nd|] eqn:En; [|congruence].
    pose proof (HO _ _ En) as NO.
    destruct (HD i nd ltac:(rewrite EL; apply in_elt) En) as (HL1 & HL2 & HF).
    destruct (learn_paramsR dc i nd) as (ws & E1 & EW & K); auto. { unfold node_ok in NO. destruct (n_body nd); auto. tauto. }
    destruct (relab_stepR (INR (w + 5) * e) f hs fl L L1 i L2 ud0 m0 ws (f i) nd) as (j & m1 & E5 & I1 & X1 & IM1); auto.
    { rewrite (me_vt _ _ _ H4). auto. } { destruct (n_body nd); tauto. }
    exists (set_ud ud0 i (Some j), m1). split.
    { unfold learn_step, node_of. rewrite En. cbn [get bind]. rewrite E1. cbn [bind]. exact E5. }
    cbn [fst snd]. split; auto. split; [eapply mext_trans; eauto|]. split.
    { intros c Hc. destruct (IM1 c Hc) as (j' & p & t0 & t1 & Q1 & Q2 & Q3 & Q4). exists j', p, t0, t1. split; auto. split; auto. split; auto.
      eapply relab_ext; [|exact Q3]. intros k _. destruct (Nat.eq_dec k i) as [->|Nk]; [rewrite set_at_same; auto|rewrite set_at_other; auto]. }
    split.
    { intros c Hc. unfold set_ud. destruct (Nat.eqb c i) eqn:Ec; [apply Nat.eqb_eq in Ec; subst; exfalso; apply Hc; left; auto|]. apply H6. intros G. apply Hc. right; auto. }
    intros c nd' Hc Ec. destruct (Nat.eq_dec c i) as [->|Nc].
    + rewrite En in Ec. injection Ec as <-. unfold f. destruct (n_body nd); tauto.
    + apply H7; auto. destruct Hc; [congruence|auto].
  - cbn [fst snd]. split; auto. split; [apply mext_refl|]. split; [intros i []|]. split; auto. intros i nd [].
  - cbn [fst snd] in *. exists ud', m'. auto 10.
Qed.
End RLearn.

Lemma ncount_le {A} (Q : A -> Prop) l n : ncount Q l n -> rn n <= INR (length l).
Proof.
  intros H. unfold rn. rewrite INR_IZR_INZ. apply IZR_le. induction H; simpl length; lia.
Qed.
Lemma node_counts_le {P : pops} (val : P -> R) (h : heap P) root recs i nd ns : node_counts val h root recs i nd ns -> Forall (fun n => rn n <= INR (length recs)) ns.
Proof.
  unfold node_counts. destruct (n_body nd) as [l|v pt pf|es].
  - intros ->. constructor.
  - intros (a & b & -> & A & B). constructor; [|constructor; [|constructor]]; eapply ncount_le; eauto.
  - induction 1; constructor; auto. eapply ncount_le; eauto.
Qed.
(** what the specification and the result have in common *)
Section Result.
Context {P : pops} (val : P -> R).
Lemma relab_result (h : heap P) root s t t0 t' f c dl : 0 <= c -> 0 <= dl -> NoDup (leaves s) -> conforms s t' -> Rep val h root t -> relab f h root t0 -> dists f h root ->
  rnear c dl t0 t' ->
  positive t0 /\ normalized t0 /\ (forall x, base t' x = base t x) /\ positive t' /\ norm_near (c + dl) t' /\ (deterministic t -> deterministic t') /\
  forall x0, sum_over (leaves s) (fun x => Rabs (weight t0 x - weight t' x)) x0 <= exp (INR (vsize s) * (2 * c + 3 * dl)) - 1.
Proof.
  intros C0 D0 ND CF HR RL DS NR. destruct (relab_facts val f h t root t0 HR RL) as (B1 & B2 & B3). destruct (B3 DS) as [P0 N0].
  assert (positive t') as P1 by (eapply rnear_positive; eauto). pose proof (positive_nonneg _ P0) as Q0. pose proof (positive_nonneg _ P1) as Q1.
  pose proof (normalized_near dl t0 D0 N0) as NN. split; auto. split; auto. split. { intros x. rewrite (rnear_base c dl t0 t' x NR). auto. }
  split; auto. split; [eapply rnear_norm; eauto|]. split. { intros D. eapply rnear_deterministic; eauto. }
  intros x0. eapply Rle_trans; [apply (rnear_tv c dl C0 D0 s ND t0 t' x0); auto; eapply rnear_conforms; eauto|].
  pose proof (vexp_ge1 (vsize s) dl D0). lra.
Qed.
End Result.
(** ** SampleParameters *)
Section FloatDraws.
Context (F : farith) (B u eta : R) (FK : float_ok F B u eta) (M : R).
Lemma rnd_close x : 0 < x -> x <= (2 * B + 4) * 10000000 -> close (2 * u) x (f_rnd F x) /\ 0 < f_rnd F x.
Proof.
  intros X0 X1. pose proof (fk_u _ _ _ _ FK) as [U0 U1]. pose proof (fk_rnd _ _ _ _ FK x) as R. rewrite !(Rabs_right x) in R by lra. specialize (R X1). apply Rabs_le_inv in R.
  assert (1 + 2 * u <= exp (2 * u)) as E by apply exp_ineq1_le. assert (0 < f_rnd F x) as P0 by nra. split; auto. split; [nra|].
  apply Rle_trans with ((1 + 2 * u) * f_rnd F x); [nra|]. apply Rmult_le_compat_r; lra.
Qed.
Lemma dec_close r : 0 < r -> Rabs (ln r) <= B -> close (u * B + eta) r (lval (f_of_decimal F r)).
Proof.
  intros R0 RB. unfold f_of_decimal. destruct (Rlt_dec 0 r) as [H|H]; [|lra]. cbn [lval]. rewrite <- (exp_ln r R0) at 1. apply close_of_log.
  eapply Rle_trans; [apply (fk_log _ _ _ _ FK); auto|]. pose proof (fk_u _ _ _ _ FK). nra.
Qed.
Lemma ln_in r : exp (- M) <= r <= exp M -> Rabs (ln r) <= M.
Proof.
  intros [H1 H2]. pose proof (exp_pos (- M)). apply Rabs_le. split.
  - rewrite <- (ln_exp (- M)). apply ln_mono; lra.
  - rewrite <- (ln_exp M). apply ln_mono; lra.
Qed.
Lemma float_draws : 0 <= M -> 2 * M + 2 <= B -> exp M <= (B + 2) * 10000000 -> dround (Dfloat F) lval (fun r => r) M (f_err B u eta).
Proof.
  intros M0 MB ME. pose proof (fk_u _ _ _ _ FK) as [U0 U1]. pose proof (fk_eta _ _ _ _ FK) as [T0 T1]. split; simpl.
  - intros r Hr. pose proof (exp_pos (- M)). eapply close_weaken; [|lra| |apply dec_close; [lra|]].
    + unfold f_err. lra.
    + unfold f_of_decimal. destruct (Rlt_dec 0 r); simpl; [left; apply exp_pos|lra].
    + pose proof (ln_in r Hr). lra.
  - intros a b Ha Hb. pose proof (exp_pos (- M)) as EM. assert (0 < a) by lra. assert (0 < b) by lra.
    destruct (rnd_close (a + b)) as [Cs Ps]; [lra|lra|]. set (s := f_rnd F (a + b)) in *.
    assert (forall c, 0 < c <= a + b -> exp (- M) <= c <= exp M -> close (3 * f_err B u eta) (c / (a + b)) (lval (f_of_decimal F (f_rnd F (c / s))))) as K.
    { intros c Hc Hc2. assert (0 < c / s) as P1 by (apply Rdiv_lt_0_compat; lra).
      assert (0 < c / (a + b)) as P0 by (apply Rdiv_lt_0_compat; lra).
      assert (close (2 * u) (c / (a + b)) (c / s)) as C1.
      { replace (2 * u) with (0 + 2 * u) by ring. apply close_div; try lra; auto. apply close_refl; lra. }
      assert (c / (a + b) <= 1) as L1. { apply Rmult_le_reg_r with (a + b); [lra|]. replace (c / (a + b) * (a + b)) with c by (field; lra). lra. }
      assert (exp (2 * u) <= 4) as E4. { apply Rle_trans with (exp 1); [apply exp_mono; lra|]. apply Rle_trans with 3; [apply exp_le_3|lra]. }
      destruct (rnd_close (c / s)) as [C2 P2]; auto. { destruct C1 as [C1 _]. nra. }
      pose proof (close_trans _ _ _ _ _ C1 C2) as C3. set (r := f_rnd F (c / s)) in *.
      assert (exp (- (2 * M + 2)) <= r <= exp (2 * M + 2)) as [R1 R2].
      { destruct C3 as [C3 C4]. assert (exp (2 * u + 2 * u) <= exp (1 / 2)) as E5 by (apply exp_mono; lra). split.
        - apply Rmult_le_reg_l with (exp (2 * u + 2 * u)); [apply exp_pos|]. apply Rle_trans with (c / (a + b)); [|exact C4]. rewrite <- exp_plus.
          apply Rle_trans with (exp (- M) * / (2 * exp M)).
          + apply Rle_trans with (exp (- M + (- M + - (1)))); [apply exp_mono; lra|]. rewrite !exp_plus. apply Rmult_le_compat_l; [lra|]. rewrite Rinv_mult, (Rmult_comm (/ 2)).
            rewrite exp_Ropp. apply Rmult_le_compat_l; [left; apply Rinv_0_lt_compat, exp_pos|]. rewrite exp_Ropp. apply Rinv_le_contravar; [lra|]. pose proof (exp_ineq1_le 1). lra.
          + unfold Rdiv. apply Rmult_le_compat; try lra; [left; apply Rinv_0_lt_compat; pose proof (exp_pos M); lra|]. apply Rinv_le_contravar; lra.
        - apply Rle_trans with (exp (2 * u + 2 * u) * 1); [pose proof (exp_pos (2 * u + 2 * u)); nra|]. rewrite Rmult_1_r. apply exp_mono. lra. }
      assert (Rabs (ln r) <= B) as RB.
      { apply Rabs_le. split; [apply Rle_trans with (- (2 * M + 2)); [lra|]; rewrite <- (ln_exp (- (2 * M + 2))); apply ln_mono; [apply exp_pos|auto]|].
        apply Rle_trans with (2 * M + 2); [|lra]. rewrite <- (ln_exp (2 * M + 2)). apply ln_mono; auto. }
      pose proof (dec_close r P2 RB) as C5. eapply close_weaken; [|lra| |exact (close_trans _ _ _ _ _ C3 C5)].
      - unfold f_err. pose proof (fk_B _ _ _ _ FK). nra.
      - unfold f_of_decimal. destruct (Rlt_dec 0 r); simpl; [left; apply exp_pos|lra]. }
    split; apply K; auto; lra.
Qed.
Lemma float_near1 p : 4 * f_err B u eta <= 1 / 10000 -> close (4 * f_err B u eta) 1 (lval p) -> f_near1 p = true.
Proof.
  intros H [C1 C2]. destruct p as [|x]; simpl in *; [lra|]. destruct (Rle_dec (Rabs x) (1 / 10000)) as [G|G]; auto. exfalso. apply G.
  rewrite <- exp_plus in C2. rewrite Rmult_1_r in C1. apply Rabs_le. split.
  - destruct (Rle_dec (- (1 / 10000)) x); auto. assert (exp (4 * f_err B u eta + x) < exp 0) by (apply exp_increasing; lra). rewrite exp_0 in *. lra.
  - destruct (Rle_dec x (1 / 10000)); auto. assert (exp (4 * f_err B u eta) < exp x) by (apply exp_increasing; lra). lra.
Qed.
End FloatDraws.
Section RSample.
Context {P : pops} (val : P -> R) (B e d dl : R) (HP : pround P val B e d) (HC : pcompare P val B d) (DL : 0 <= dl).
Context (near1 : P -> bool) (near1_ok : forall p, close (4 * e) 1 (val p) -> near1 p = true) (w : nat) (M : R) (M0 : 0 <= M) (HK : INR (w + 3) * e <= dl).
Context (G : dops P) (dv : dcar G -> R) (HG : dround G val dv M e).
Context (HB : 2 * M + ln (INR w) + INR (w + 4) * e <= B).
Notation heap := (heap P). Notation mgr := (mgr P). Notation node := (node P). Notation InvF := (InvF val B dl).
Definition dok (u : dcar G) : Prop := exp (- M) <= dv u <= exp M.
Lemma dok_range u : dok u -> 0 < dv u /\ range M (dv u).
Proof. intros H. pose proof (exp_pos (- M)). unfold dok in H. split; [lra|right; auto]. Qed.
Lemma dec_draws us : Forall dok us -> Forall2 (fun x p => close (INR 1 * e) x (val p)) (map dv us) (map (d_dec G) us).
Proof. induction 1; simpl map; constructor; auto. simpl INR. rewrite Rmult_1_l. apply (dr_dec HG). auto. Qed.
Lemma sample_paramsR (nd : node) s : (match n_body nd with BDec es => es <> [] | _ => True end) -> Forall dok s ->
  (need_nd nd <= length s)%nat -> (need_nd nd <= w)%nat ->
  exists ws du s', sample_params G near1 nd s = Ok (ws, s') /\ s = du ++ s' /\ length du = need_nd nd /\
    Forall2 (fun x u => close (INR (w + 3) * e) x (val u)) (shares (map dv du)) ws /\
    match n_body nd with
    | BLit _ => True
    | BTop _ _ _ => (exists a b, ws = [a; b] /\ top_fit B dl (val a) (val b)) /\ dist (shares (map dv du))
    | BDec es => (length ws = length es /\ Forall (fun u => range B (val u)) ws) /\ dist (shares (map dv du))
    end.
Proof.
  intros NE F H HW. unfold sample_params, need_nd in *. pose proof (rd_e HP) as E0. pose proof (rd_nonneg HP) as V0. destruct (n_body nd) as [l|v pt pf|es].
  - exists [], [], s. repeat (split; auto). constructor.
  - destruct s as [|a [|b s]]; try (simpl in H; lia). cbn [next bind].
    inversion F as [|? ? Da F']; subst. inversion F' as [|? ? Db F'']; subst.
    destruct (dok_range a Da) as [Pa Ra], (dok_range b Db) as [Pb Rb]. destruct (dr_share HG a b Da Db) as [Ca Cb]. set (t := d_ratio G a (d_sum G a b)) in *. set (f := d_ratio G b (d_sum G a b)) in *.
    assert (range (M + ln (INR 2)) (dv a + dv b)) as Rab.
    { pose proof (range_sum M (fun x => x) [dv a; dv b] 2 (le_n _)) as Q. simpl rsum in Q. rewrite Rplus_0_r in Q. apply Q. intros x [<-|[<-|[]]]; auto. }
    assert (0 <= ln (INR 2) <= ln (INR w)) as [L0 L1]. { split; [apply (ln_len [0; 0])|]. apply ln_mono; [apply lt_0_INR; lia|apply le_INR; auto]. }
    assert (INR 4 * e <= INR (w + 4) * e) as K4 by (apply (ke_le val B e d HP); lia). assert (INR 4 = 4) as E4 by (simpl; lra). rewrite E4 in K4.
    assert (INR 3 * e <= INR (w + 3) * e) as K3 by (apply (ke_le val B e d HP); lia). assert (INR 3 = 3) as E3 by (simpl; lra). rewrite E3 in K3.
    assert (0 < dv a / (dv a + dv b)) as Qa by (apply Rdiv_lt_0_compat; lra). assert (0 < dv b / (dv a + dv b)) as Qb by (apply Rdiv_lt_0_compat; lra).
    assert (dv a / (dv a + dv b) + dv b / (dv a + dv b) = 1) as Q1 by (field; lra).
    assert (0 < val t) as Pt by (apply (close_pos _ _ _ Ca); auto). assert (0 < val f) as Pf by (apply (close_pos _ _ _ Cb); auto).
    assert (range B (val t)) as Rt.
    { eapply range_weaken; [|eapply range_close; [exact (range_div _ _ _ _ Ra Rab ltac:(lra))|exact Ca|auto]]. lra. }
    assert (range B (val f)) as Rf.
    { eapply range_weaken; [|eapply range_close; [exact (range_div _ _ _ _ Rb Rab ltac:(lra))|exact Cb|auto]]. lra. }
    pose proof (close_add _ _ _ _ _ Ca Cb) as C1. rewrite Q1 in C1.
    assert (near1 (padd t f) = true) as ->.
    { apply near1_ok. replace (4 * e) with (3 * e + e) by ring. eapply close_trans; [exact C1|]. apply (rd_add HP); auto.
      eapply range_weaken; [|eapply range_close; [apply (range_1 0); lra|exact C1|lra]]. lra. }
    cbn [Base.assert bind]. exists [t; f], [a; b], s. split; auto. split; auto. split; auto.
    assert (shares (map dv [a; b]) = [dv a / (dv a + dv b); dv b / (dv a + dv b)]) as ES by (unfold shares; simpl; rewrite Rplus_0_r; reflexivity).
    rewrite ES. split; [constructor; [|constructor; [|constructor]]; (eapply close_weaken; [exact K3|lra|auto|auto])|]. split.
    + do 2 eexists. split; [reflexivity|]. split; auto. split; auto. split; auto. split; auto. apply close_sym. eapply close_weaken; [|lra| |exact C1]; lra.
    + split; [constructor; [auto|constructor; [auto|constructor]]|]. simpl. lra.
  - destruct (draws_spec G (length es) s H) as (us & s' & E & -> & EL). rewrite E. cbn [bind]. apply Forall_app in F as [F _].
    assert (us <> []) as NU by (intros ->; apply NE; destruct es; auto; discriminate).
    set (ps := map (d_dec G) us). set (z := fold_left padd ps pzero).
    exists (map (fun p => pdiv p z) ps), us, s'. split; auto. split; auto. split; auto.
    assert (length (map dv us) = length us) as LX by apply map_length.
    assert (INR (2 * 1 + length (map dv us) + 1) * e <= INR (w + 3) * e) as KL by (apply (ke_le val B e d HP); lia).
    assert (INR (w + 3) * e <= INR (w + 4) * e) as K4 by (apply (ke_le val B e d HP); lia).
    assert (INR (1 + length (map dv us)) * e <= INR (w + 4) * e) as K5 by (apply (ke_le val B e d HP); lia).
    assert (0 <= ln (INR (length (map dv us))) <= ln (INR w)) as [L0 LL]. { split; [apply ln_len|]. rewrite LX. apply ln_mono; [apply lt_0_INR; destruct us; [congruence|simpl; lia]|apply le_INR; lia]. }
    assert (forall x, In x (map dv us) -> 0 < x /\ range M x) as RX.
    { intros x Hx. apply in_map_iff in Hx as (u & <- & Hu). rewrite Forall_forall in F. apply dok_range; auto. }
    destruct (scale_close val B e d HP (map dv us) ps z 1 M) as (G1 & G2 & G3); auto.
    + intros E1. apply NU. apply map_eq_nil in E1. auto.
    + apply dec_draws; auto.
    + unfold z. apply (fold_close val B e d HP (map dv us) ps 1 M); [apply dec_draws; auto|intros; apply RX; auto|lra].
    + lra.
    + split; [|split; [split|exact G3]].
      * unfold shares. destruct G3 as [G3 _]. clear - G1 KL V0 G3. revert G1 G3 KL.
        generalize (map (fun x => x / rsum (fun x => x) (map dv us)) (map dv us)) as fs. intros fs G1 G3 KL. eapply Forall2_impl_in; [|exact G1].
        intros x u Hx _ C. rewrite Forall_forall in G3. eapply close_weaken; eauto. left. apply G3; auto.
      * unfold ps. rewrite !map_length. auto.
      * eapply Forall_impl; [|exact G2]. simpl. tauto.
Qed.
Lemma sample_passR (hs : heap) fl L ud (m : mgr) (s : list (dcar G)) : heap_ok (m_vt m) hs -> topo hs L -> InvF fl m ->
  Forall dok s -> (forall i, In i L -> need_at hs i <= w)%nat -> (need hs L <= length s)%nat ->
  exists D s' ud' m', let f := fun i => shares (map dv (D i)) in foldM (sample_step G near1 hs fl) (rev L) (s, (ud, m)) = Ok (s', (ud', m')) /\
    s = concat (map D (rev L)) ++ s' /\ (forall i, In i L -> length (D i) = need_at hs i) /\
    InvF fl m' /\ mext fl m m' /\ (forall i, In i L -> rimageR val d dl (INR (w + 3) * e) f hs fl m' ud' i) /\ (forall i, ~ In i L -> ud' i = ud i) /\
    (forall i nd, In i L -> nth_error hs i = Some nd -> match n_body nd with BLit _ => True | _ => dist (f i) end).
Proof.
  intros HO TP I F HW HN.
  destruct (bottom_up (sample_step G near1 hs fl) (fun L2 st => exists D, let f := fun i => shares (map dv (D i)) in s = concat (map D (rev L2)) ++ fst st /\ (forall i, In i L2 -> length (D i) = need_at hs i) /\
    InvF fl (snd (snd st)) /\ mext fl m (snd (snd st)) /\ (forall i, In i L2 -> rimageR val d dl (INR (w + 3) * e) f hs fl (snd (snd st)) (fst (snd st)) i) /\ (forall i, ~ In i L2 -> fst (snd st) i = ud i) /\
    (forall i nd, In i L2 -> nth_error hs i = Some nd -> match n_body nd with BLit _ => True | _ => dist (f i) end)) L (s, (ud, m)))
    as ([s' [ud' m']] & E & D & H1 & H2 & H3 & H4 & H5 & H6 & H7).
  - intros L1 i L2 [s0 [ud0 m0]] EL (D & H1 & H2 & H3 & H4 & H5 & H6 & H7). cbn [fst snd] in *.
    pose proof TP as (ND & PF & HL).
    assert (i < length hs)%nat as Hi by (apply HL; rewrite EL; apply in_elt).
    apply nth_error_Some in Hi. destruct (nth_error hs i) as [nd|] eqn:En; [|congruence].
    pose proof (HO _ _ En) as NO.
    assert (Forall dok s0) as F0 by (rewrite H1 in F; apply Forall_app in F; tauto).
    assert (need_at hs i <= length s0)%nat as N2.
    { rewrite EL in HN. unfold need in HN. rewrite map_app, list_sum_app in HN. simpl in HN. rewrite H1, app_length in HN.
      rewrite concat_need with (hs := hs) in HN by auto. unfold need in HN. lia. }
    assert (need_at hs i <= w)%nat as N3 by (apply HW; rewrite EL; apply in_elt).
    destruct (sample_paramsR nd s0) as (ws & d' & s1 & E1 & E2 & E3 & E3' & E4); auto.
    { unfold node_ok in NO. destruct (n_body nd); auto. tauto. } { unfold need_at in N2. rewrite En in N2. exact N2. } { unfold need_at in N3. rewrite En in N3. exact N3. }
    destruct (relab_stepR val B d dl HC DL (INR (w + 3) * e) (fun k => shares (map dv (D k))) hs fl L L1 i L2 ud0 m0 ws (shares (map dv d')) nd) as (j & m1 & E5 & I1 & X1 & IM1); auto.
    { rewrite (me_vt _ _ _ H4). auto. } { destruct (n_body nd); tauto. }
    exists (s1, (set_ud ud0 i (Some j), m1)). split.
    { unfold sample_step, node_of. rewrite En. cbn [get bind fst snd]. rewrite E1. cbn [bind]. rewrite E5. reflexivity. }
    assert (~ In i L2) as NI by (apply (NoDup_app_nin L1 L2 i); rewrite <- EL; exact ND).
    exists (set_at D i d'). cbn [fst snd]. split.
    { cbn [rev]. rewrite map_app, concat_app. cbn [map concat]. rewrite set_at_same, app_nil_r, <- app_assoc, <- E2, H1. f_equal. f_equal. apply map_ext_in.
      intros c Hc. rewrite set_at_other; auto. intros ->. apply NI. apply in_rev. auto. }
    split. { intros c Hc. destruct (Nat.eq_dec c i) as [->|Nc]; [rewrite set_at_same, E3; unfold need_at; rewrite En; auto|]. rewrite set_at_other by auto. apply H2. destruct Hc; [congruence|auto]. }
    assert (forall k, set_at (fun k => shares (map dv (D k))) i (shares (map dv d')) k = shares (map dv (set_at D i d' k))) as SF.
    { intros k. destruct (Nat.eq_dec k i) as [->|Nk]; [rewrite !set_at_same; auto|rewrite !set_at_other; auto]. }
    split; auto. split; [eapply mext_trans; eauto|]. split.
    { intros c Hc. destruct (IM1 c Hc) as (j' & p & t0 & t1 & Q1 & Q2 & Q3 & Q4). exists j', p, t0, t1. split; auto. split; auto. split; auto.
      eapply relab_ext; [|exact Q3]. intros k _. apply SF. }
    split.
    { intros c Hc. unfold set_ud. destruct (Nat.eqb c i) eqn:Ec; [apply Nat.eqb_eq in Ec; subst; exfalso; apply Hc; left; auto|]. apply H6. intros K0. apply Hc. right; auto. }
    intros c nd' Hc Ec. destruct (Nat.eq_dec c i) as [->|Nc].
    + rewrite En in Ec. injection Ec as <-. rewrite <- SF, set_at_same. destruct (n_body nd); tauto.
    + rewrite set_at_other by auto. apply H7; auto. destruct Hc; [congruence|auto].
  - exists (fun _ => []). cbn [fst snd]. split; auto. split; [intros i []|]. split; auto. split; [apply mext_refl|]. split; [intros i []|]. split; auto. intros i nd [].
  - cbn [fst snd] in *. exists D, s', ud', m'. cbn zeta. auto 12.
Qed.
End RSample.
Theorem round_sample_params {P : pops} (val : P -> R) B e d : pround P val B e d -> pcompare P val B d -> forall near1 : P -> bool, (forall p, close (4 * e) 1 (val p) -> near1 p = true) ->
  forall (G : dops P) dv M, dround G val dv M e -> forall dl w (m : mgr P) fl root s t ud us,
  0 <= dl -> INR (w + 3) * e <= dl -> fits val B dl fl m -> psdd_at val m root s t ->
  (forall i nd, reach (m_heap m) root i -> nth_error (m_heap m) i = Some nd -> (need_nd nd <= w)%nat) ->
  Forall (fun u => exp (- M) <= dv u <= exp M) us -> 0 <= M -> 2 * M + ln (INR w) + INR (w + 4) * e <= B ->
  exists L, SerializePsddNodes (m_heap m) [root] = Ok L /\ ((need (m_heap m) L <= length us)%nat ->
  exists r us' ud' m' t0 t' D, SampleParameters G near1 (m_heap m) ud root fl us m = Ok (r, us', ud', m') /\ mext fl m m' /\ fits val B dl fl m' /\
    psdd_at val m' r s t' /\ flag_of (m_heap m') r = Some fl /\ In r (m_live m') /\
    us = concat (map D (rev L)) ++ us' /\ (forall i, In i L -> length (D i) = need_at (m_heap m) i) /\
    relab (fun i => shares (map dv (D i))) (m_heap m) root t0 /\ rnear (INR (w + 3) * e + d) dl t0 t' /\ positive t0 /\ normalized t0 /\
    (forall x, base t' x = base t x) /\ positive t' /\ norm_near (INR (w + 3) * e + d + dl) t' /\ (deterministic t -> deterministic t') /\
    (forall x0, sum_over (leaves s) (fun x => Rabs (weight t0 x - weight t' x)) x0 <= exp (INR (vsize s) * (2 * (INR (w + 3) * e + d) + 3 * dl)) - 1) /\
    (forall i, In i L -> ud' i = None) /\ (forall i, ~ In i L -> ud' i = ud i)).
Proof.
  intros HP HC near1 N1 G dv M HG dl w m fl root s t ud us DL HK FT A HW F M0 HB.
  destruct (psdd_at_facts val m root s t A) as (HO & ND & _ & L & SO). destruct A as (W & HR & p & V & S).
  exists L. split; [apply SO|]. intros HN. set (h := m_heap m) in *.
  assert (topo h L) as TP. { split; [apply SO|]. split; [apply SO|]. intros i Hi. apply (ser_lt _ h HO root L SO i Hi). }
  destruct (sample_passR val B e d dl HP HC DL near1 N1 w M M0 HK G dv HG HB h fl L ud m us HO TP (conj W FT) F) as (D & us' & ud' & m' & E1 & H1 & H2 & H3 & H4 & H5 & H6 & H7); auto.
  { intros i Hi. unfold need_at. destruct (nth_error h i) as [nd|] eqn:En; [|lia]. apply (HW i nd); auto. apply (so_in _ _ _ SO); auto. }
  assert (In root L) as HrL by (apply (so_in _ _ _ SO); constructor).
  destruct (H5 root HrL) as (r & p' & t0 & t1 & U & V' & RL & NR & (t' & [B1 B2] & NR') & FL & LV). assert (p' = p) as -> by congruence.
  pose proof (rnear_trans _ _ _ _ _ _ NR NR') as NR2.
  assert (psdd_at val m' r s t') as AT. { split; [apply H3|]. split; auto. exists p. rewrite (me_vt _ _ _ H4). auto. }
  destruct (psdd_at_facts val m' r s t' AT) as (_ & _ & CF & _).
  exists r, us', (clear_ud L ud'), m', t0, t', D.
  split. { unfold SampleParameters, SampleParametersForMultiplePsdds. fold h. rewrite (so_eq _ _ _ SO). cbn [bind]. rewrite E1. cbn [bind fst snd mapM]. rewrite U. reflexivity. }
  split; auto. split; [apply H3|]. split; auto. split; auto. split; auto. split; auto. split; auto.
  assert (0 <= INR (w + 3) * e + d) as C0. { pose proof (ke_nonneg val B e d HP (w + 3)). pose proof (rd_d HP). lra. }
  destruct (relab_result val h root s t t0 t' (fun i => shares (map dv (D i))) _ dl C0 DL ND CF HR RL) as (K1 & K2 & K3 & K4 & K5 & K6 & K7); auto.
  { intros j nd Rj Ej. apply H7; auto. apply (so_in _ _ _ SO); auto. }
  do 9 (split; auto). split.
  - intros i Hi. rewrite clear_ud_spec. assert (memb i L = true) as -> by (apply memb_In; auto). auto.
  - intros i Hi. rewrite clear_ud_spec. assert (memb i L = false) as -> by (apply memb_false; auto). auto.
Qed.
Theorem round_learn {P : pops} (val : P -> R) B e d : pround P val B e d -> pcompare P val B d ->
  forall dl w M (m : mgr P) fl root s t ud (dc : counts) (recs : list inst) (ex : examples) alpha,
  0 <= dl -> INR (w + 5) * e <= dl -> fits val B dl fl m -> psdd_at val m root s t ->
  (forall v, In v (leaves s) -> ex v = Some (map (fun x => x v) recs)) ->
  (forall i nd, reach (m_heap m) root i -> nth_error (m_heap m) i = Some nd -> dc i = repeat 0%N (arity nd) /\ (arity nd <= w)%nat) ->
  exp (- M) <= val alpha -> INR (length recs) + val alpha <= exp M -> 2 * M + ln (INR w) + INR (w + 5) * e <= B ->
  exists r ud' dc' m' t0 t' f, LearnPsddParameters (m_heap m) ud dc root ex (length recs) alpha fl m = Ok (r, ud', dc', m') /\ mext fl m m' /\ fits val B dl fl m' /\
    psdd_at val m' r s t' /\ flag_of (m_heap m') r = Some fl /\ In r (m_live m') /\
    relab f (m_heap m) root t0 /\
    (forall i nd, reach (m_heap m) root i -> nth_error (m_heap m) i = Some nd -> exists ns, node_counts val (m_heap m) root recs i nd ns /\ f i = freqs (val alpha) ns) /\
    rnear (INR (w + 5) * e + d) dl t0 t' /\ positive t0 /\ normalized t0 /\
    (forall x, base t' x = base t x) /\ positive t' /\ norm_near (INR (w + 5) * e + d + dl) t' /\ (deterministic t -> deterministic t') /\
    (forall x0, sum_over (leaves s) (fun x => Rabs (weight t0 x - weight t' x)) x0 <= exp (INR (vsize s) * (2 * (INR (w + 5) * e + d) + 3 * dl)) - 1) /\
    (forall i, dc' i = dc i) /\
    (forall i, reach (m_heap m) root i -> ud' i = None) /\ (forall i, ~ reach (m_heap m) root i -> ud' i = ud i).
Proof.
  intros HP HC dl w M m fl root s t ud dc recs ex alpha DL HK FT A HX HD A1 A2 HB.
  destruct (psdd_at_facts val m root s t A) as (HO & ND & _ & L & SO). pose proof A as A0. destruct A as (W & HR & p & V & S).
  destruct (count_passes val m root s t L dc recs ex A0 SO HX ltac:(intros i nd Ri En; apply (HD i nd); auto)) as (dc1 & E1 & Q1 & Q2). set (h := m_heap m) in *.
  assert (topo h L) as TP. { split; [apply SO|]. split; [apply SO|]. intros i Hi. apply (ser_lt _ h HO root L SO i Hi). }
  destruct (learn_passR val B e d dl HP HC DL w M alpha HK A1 h fl L ud m dc1 HO TP (conj W FT) HB) as (ud1 & m' & E2 & I' & X & IM & UD & DS).
  { intros i nd Hi En. pose proof (Q2 i nd Hi En) as NC. split; [eapply node_counts_length; eauto|]. split; [apply (HD i nd); auto; apply (so_in _ _ _ SO); auto|].
    eapply Forall_impl; [|eapply node_counts_le; exact NC]. simpl. intros n Hn. lra. }
  assert (In root L) as HrL by (apply (so_in _ _ _ SO); constructor).
  destruct (IM root HrL) as (r & p' & t0 & t1 & U & V' & RL & NR & (t' & [B1 B2] & NR') & FL & LV). assert (p' = p) as -> by congruence.
  pose proof (rnear_trans _ _ _ _ _ _ NR NR') as NR2.
  assert (psdd_at val m' r s t') as AT. { split; [apply I'|]. split; auto. exists p. rewrite (me_vt _ _ _ X). auto. }
  destruct (psdd_at_facts val m' r s t' AT) as (_ & _ & CF & _).
  exists r, (clear_ud L ud1), (reset_counts L dc1), m', t0, t', (fun i => freqs (val alpha) (dc1 i)).
  split. { unfold LearnPsddParameters. fold h. rewrite (so_eq _ _ _ SO). cbn [bind]. rewrite E1. cbn [bind]. rewrite E2. cbn [bind]. rewrite U. reflexivity. }
  split; auto. split; [apply I'|]. split; auto. split; auto. split; auto. split; auto.
  split. { intros i nd Hi En. exists (dc1 i). split; auto. apply Q2; auto. apply (so_in _ _ _ SO); auto. }
  assert (0 <= INR (w + 5) * e + d) as C0. { pose proof (ke_nonneg val B e d HP (w + 5)). pose proof (rd_d HP). lra. }
  destruct (relab_result val h root s t t0 t' (fun i => freqs (val alpha) (dc1 i)) _ dl C0 DL ND CF HR RL) as (K1 & K2 & K3 & K4 & K5 & K6 & K7); auto.
  { intros j nd Rj Ej. apply DS; auto. apply (so_in _ _ _ SO); auto. }
  do 8 (split; auto). split; [|split].
  - intros i. rewrite reset_spec. destruct (memb i L) eqn:Em.
    + apply memb_In in Em. destruct (nth_error h i) as [nd|] eqn:En.
      * destruct (HD i nd) as [-> _]; auto; [apply (so_in _ _ _ SO); auto|]. rewrite <- (node_counts_length _ _ _ _ _ _ _ (Q2 i nd Em En)).
        clear. induction (dc1 i); simpl; congruence.
      * apply (ser_lt _ h HO root L SO i) in Em. apply nth_error_None in En. lia.
    + apply Q1. apply memb_false. auto.
  - intros i Hi. rewrite clear_ud_spec. assert (memb i L = true) as -> by (apply memb_In; apply (so_in _ _ _ SO); auto). auto.
  - intros i Hi. rewrite clear_ud_spec. rewrite <- (so_in _ _ _ SO) in Hi. assert (memb i L = false) as -> by (apply memb_false; auto). auto.
Qed.
