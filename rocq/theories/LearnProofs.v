(** Parameter sampling (C30) and the creation pass shared with learning. *)
From Coq Require Import Reals Lra.
From Verif Require Import Base Param Vtree VtreeProofs Spec SpecProofs Heap Manager HeapProofs SerProofs RepProofs LoadProofs
  MulProofs ReplayProofs TreeProofs Query QueryProofs MpeProofs SampleProofs Learn.
Local Open Scope R_scope.

(** exact operations on the numbers drawn: [dv] is the number *)
Record dexact {P : pops} (G : dops P) (val : P -> R) (dv : dcar G -> R) : Prop := {
  dx_dec : forall u, 0 < dv u -> val (d_dec G u) = dv u;
  dx_sum : forall a b, dv (d_sum G a b) = dv a + dv b;
  dx_ratio : forall a b, 0 < dv b -> val (d_ratio G a b) = dv a / dv b;
}.
Arguments dx_dec {P G val dv}. Arguments dx_sum {P G val dv}. Arguments dx_ratio {P G val dv}.
(** numbers that are parameters themselves *)
Definition Dself (P : pops) : dops P := {| dcar := P; d_dec := fun u => u; d_sum := padd; d_ratio := pdiv |}.
Lemma dself_exact P val : pexact P val -> dexact (Dself P) val val.
Proof. intros HP. split; simpl; auto; intros; [apply (val_add HP)|apply (val_div HP); lra]. Qed.

Section Relab.
Context {P : pops} (val : P -> R) (HP : pexact P val).
Notation heap := (heap P). Notation mgr := (mgr P). Notation node := (node P).
Notation Rep := (Rep val).

(** [relab f h i t']: [t'] is the PSDD of node [i] in which every node [j] has the parameters [f j] (true and false
    parameter; one per element), up to the order of the elements. *)
Inductive relab (f : nat -> list R) (h : heap) : nat -> ptree -> Prop :=
| rl_lit i nd l : nth_error h i = Some nd -> n_body nd = BLit l -> relab f h i (TLit l)
| rl_top i nd v pt pf a b : nth_error h i = Some nd -> n_body nd = BTop v pt pf -> f i = [a; b] -> relab f h i (TTop v a b)
| rl_dec i nd es tes tes' : nth_error h i = Some nd -> n_body nd = BDec es ->
    Forall2 (fun e te => relab f h (e_prime e) (tp te) /\ relab f h (e_sub e) (ts te)) es tes ->
    map tw tes = f i -> Permutation tes tes' -> relab f h i (TDec tes').

(** Parameters of a node that are positive and sum to one *)
Definition dist (l : list R) : Prop := Forall (fun a => 0 < a) l /\ rsum (fun a => a) l = 1.
Definition dists (f : nat -> list R) (h : heap) (i : nat) : Prop := forall j nd, reach h i j -> nth_error h j = Some nd ->
  match n_body nd with BLit _ => True | _ => dist (f j) end.

Lemma relab_facts f (h : heap) t : forall i t', Rep h i t -> relab f h i t' ->
  (forall x, base t' x = base t x) /\ (deterministic t -> deterministic t') /\
  (dists f h i -> positive t' /\ normalized t').
Proof.
  induction t as [z|v a b|tes0 IH] using ptree_ind2; intros i t' HR HL.
  - apply Rep_lit_inv in HR as (nd & E1 & E2). inversion HL; subst; try congruence.
    assert (nd0 = nd) as -> by congruence. rewrite E2 in H0. injection H0 as <-. split; auto. split; auto.
    intros _. unfold positive, normalized. simpl. auto.
  - apply Rep_top_inv in HR as (nd & pt & pf & E1 & E2 & _ & _). inversion HL; subst; try congruence.
    assert (nd0 = nd) as -> by congruence. rewrite E2 in H0. injection H0 as <- <- <-. split; auto. split; [unfold deterministic; simpl; auto|].
    intros D. specialize (D i nd (reach_refl _ _) E1). rewrite E2, H1 in D. destruct D as [D1 D2]. inversion D1 as [|? ? Q1 Q2]; subst. inversion Q2; subst.
    simpl in D2. unfold positive, normalized. simpl. repeat split; auto; lra.
  - apply Rep_dec_inv in HR as (nd & es & E1 & E2 & F). inversion HL; subst; try congruence.
    assert (nd0 = nd) as -> by congruence. rewrite E2 in H0. injection H0 as <-.
    rename H1 into F1, H2 into EW, H3 into PM.
    assert (forall e, In e es -> dists f h i -> dists f h (e_prime e) /\ dists f h (e_sub e)) as DC.
    { intros e He D. split; intros j nd' Rj Ej; apply (D j nd'); auto; (eapply reach_step; [exact E1| |exact Rj]); apply in_children; eauto 10. }
    assert (Forall2 (fun te te' => (forall x, base (tp te') x = base (tp te) x) /\ (forall x, base (ts te') x = base (ts te) x) /\
       (deterministic (tp te) -> deterministic (tp te')) /\ (deterministic (ts te) -> deterministic (ts te')) /\
       (dists f h i -> (positive (tp te') /\ normalized (tp te')) /\ (positive (ts te') /\ normalized (ts te')))) tes0 tes) as K.
    { clear - IH F F1 DC. revert tes F1. induction F as [|e te es tes0 (A & B & C) F IHF]; intros tes F1; inversion F1 as [|? te' ? tes' (A' & B') F1']; subst; constructor.
      - inversion IH as [|? ? [I1 I2] _]; subst. destruct (I1 _ _ A A') as (G1 & G2 & G3), (I2 _ _ B B') as (G4 & G5 & G6).
        split; auto. split; auto. split; auto. split; auto. intros D. destruct (DC e (or_introl eq_refl) D). auto.
      - inversion IH; subst. apply IHF; auto. intros; apply DC; auto. right; auto. }
    assert (forall x, existsb (fun e => base (tp e) x && base (ts e) x) tes = existsb (fun e => base (tp e) x && base (ts e) x) tes0) as EB.
    { intros x. clear - K. induction K as [|te te' l l' (A & B & _) K IHK]; simpl; auto. rewrite A, B, IHK. reflexivity. }
    split. { intros x. rewrite !base_dec, <- (existsb_perm _ _ _ PM). apply EB. }
    split.
    + intros D. apply all_nodes_dec in D as [D1 D2]. apply all_nodes_dec. split.
      * eapply FOP_perm; [|exact PM|]. { intros a b Hab x. rewrite andb_comm. auto. }
        clear - K D1. induction K as [|te te' l l' (A & B & _) K IHK]; [constructor|]. inversion D1 as [|? ? Q1 Q2]; subst. constructor; auto.
        clear - A K Q1. induction K as [|d d' l l' (A' & _) K IHK]; [constructor|]. inversion Q1; subst. constructor; auto.
        intros x. rewrite A, A'. auto.
      * eapply Permutation_Forall; [exact PM|]. clear - K D2. induction K as [|te te' l l' (A & B & C & D & _) K IHK]; [constructor|].
        inversion D2 as [|? ? [Q1 Q2] Q3]; subst. constructor; [split; [apply C; exact Q1|apply D; exact Q2]|auto].
    + intros D. assert (dist (map tw tes)) as [W1 W2]. { specialize (D i nd (reach_refl _ _) E1). rewrite E2, <- EW in D. exact D. }
      rewrite rsum_map in W2. 
      assert (Forall (fun te => (positive (tp te) /\ normalized (tp te)) /\ (positive (ts te) /\ normalized (ts te))) tes') as K2.
      { eapply Permutation_Forall; [exact PM|]. clear - K D. induction K as [|te te' l l' (_ & _ & _ & _ & G) K IHK]; constructor; auto. }
      split; apply all_nodes_dec; split.
      * eapply Permutation_Forall; [exact PM|]. rewrite Forall_map in W1. exact W1.
      * eapply Forall_impl; [|exact K2]. simpl. tauto.
      * rewrite <- (rsum_perm _ _ _ PM). exact W2.
      * eapply Forall_impl; [|exact K2]. simpl. tauto.
Qed.
Lemma relab_ext f f' (h : heap) t : forall i, (forall j, reach h i j -> f j = f' j) -> relab f h i t -> relab f' h i t.
Proof.
  induction t as [z|v a b|tes IH] using ptree_ind2; intros i E H; inversion H; subst.
  - econstructor; eauto.
  - econstructor; eauto. rewrite <- E; auto. constructor.
  - assert (Forall (fun e => (forall i, (forall j, reach h i j -> f j = f' j) -> relab f h i (tp e) -> relab f' h i (tp e)) /\
       (forall i, (forall j, reach h i j -> f j = f' j) -> relab f h i (ts e) -> relab f' h i (ts e))) tes0) as IH'.
    { eapply Permutation_Forall; [apply Permutation_sym; eauto|exact IH]. }
    eapply rl_dec; eauto; [|rewrite <- E; auto; constructor].
    rewrite Forall_forall in IH'. eapply Forall2_impl_in; [|eauto]. intros e te He Hte [A B]. destruct (IH' te Hte) as [I1 I2].
    split; [apply I1|apply I2]; auto; intros j Hj; apply E; (eapply reach_step; [eauto| |exact Hj]); apply in_children; eauto 10.
Qed.

(** ** The creation pass *)
Definition topo (h : heap) (L : list nat) : Prop := NoDup L /\ parent_first h L /\ (forall i, In i L -> (i < length h)%nat).
Lemma suffix_reach (h : heap) L L1 L2 j k : parent_first h L -> L = L1 ++ L2 -> In j L2 -> reach h j k -> In k L2.
Proof.
  intros PF EL Hj HR. revert L1 L2 EL Hj. induction HR as [|j nd c k E Hc HR IH]; intros L1 L2 EL Hj; auto.
  apply in_split in Hj as (A & B & ->). pose proof (PF (L1 ++ A) j B) as Q. rewrite <- app_assoc in Q.
  apply (IH L1); auto. apply in_app_iff. right. right. apply (Q EL nd); auto.
Qed.
Definition rimage (f : nat -> list R) (hs : heap) fl (m : mgr) (ud : udata) (i : nat) : Prop :=
  exists j p t', ud i = Some j /\ vt_of hs i = Some p /\ node_at val m j p t' /\ relab f hs i t' /\ flag_of (m_heap m) j = Some fl /\ In j (m_live m).
Lemma flag_of_ext fl (m m' : mgr) i x : mext fl m m' -> flag_of (m_heap m) i = Some x -> flag_of (m_heap m') i = Some x.
Proof.
  intros [_ (l & -> & _) _ _]. unfold flag_of. destruct (nth_error (m_heap m) i) as [nd|] eqn:E'; [|discriminate].
  rewrite nth_error_app1; [rewrite E'; auto|]. apply nth_error_Some. congruence.
Qed.
Lemma relab_step_spec f (hs : heap) fl L L1 i L2 ud (m : mgr) ws nd :
  heap_ok (m_vt m) hs -> topo hs L -> L = L1 ++ i :: L2 -> Inv val fl m -> (forall c, In c L2 -> rimage f hs fl m ud c) ->
  nth_error hs i = Some nd ->
  match n_body nd with BLit _ => True | BTop _ _ _ => exists a b, ws = [a; b] /\ top_ok (val a) (val b) | BDec es => length ws = length es end ->
  exists j m', relab_step hs fl (ud, m) i ws = Ok (set_ud ud i (Some j), m') /\ Inv val fl m' /\ mext fl m m' /\
    (forall c, In c (i :: L2) -> rimage (set_at f i (map val ws)) hs fl m' (set_ud ud i (Some j)) c).
Proof.
  intros HO (ND & PF & HL) EL I IM En HW.
  pose proof (NoDup_app_nin L1 L2 i ltac:(rewrite <- EL; exact ND)) as NI.
  assert (forall c t, In c L2 -> relab f hs c t -> relab (set_at f i (map val ws)) hs c t) as RX.
  { intros c t Hc HR. eapply relab_ext; [|exact HR]. intros k Rk. rewrite set_at_other; auto. intros ->. apply NI.
    apply (suffix_reach hs L (L1 ++ [i]) L2 c); auto. rewrite <- app_assoc. exact EL. }
  assert (forall j (m' : mgr) c t', mext fl m m' -> In c (i :: L2) ->
    node_at val m' j (n_vt nd) t' -> relab (set_at f i (map val ws)) hs i t' -> flag_of (m_heap m') j = Some fl -> In j (m_live m') ->
    rimage (set_at f i (map val ws)) hs fl m' (set_ud ud i (Some j)) c) as FIN.
  { intros j m' c t' X Hc A LD FL LV. destruct Hc as [<-|Hc].
    - exists j, (n_vt nd), t'. unfold set_ud. rewrite Nat.eqb_refl. unfold vt_of. rewrite En. auto 12.
    - destruct (IM c Hc) as (j' & p & t & H1 & H2 & H3 & H4 & H5 & H6). exists j', p, t.
      split. { unfold set_ud. destruct (Nat.eqb c i) eqn:E; auto. apply Nat.eqb_eq in E. subst. contradiction. }
      split; auto. split; [eapply node_at_ext; eauto|]. split; auto. split; [eapply flag_of_ext; eauto|apply (me_live _ _ _ X); auto]. }
  unfold relab_step, node_of. rewrite En. cbn [get bind]. pose proof (HO _ _ En) as NO. unfold node_ok in NO.
  destruct (n_body nd) as [l|v pt pf|es] eqn:Eb.
  - destruct (literal_spec val HP fl m l (n_vt nd) I NO) as (j & m' & E1 & I' & X & LV & A & FL).
    rewrite E1. cbn [bind]. exists j, m'. do 3 (split; auto). intros c Hc. apply (FIN j m' c (TLit l)); auto. econstructor; eauto.
  - destruct HW as (a & b & -> & TO). destruct (top_spec val HP fl m v a b (n_vt nd) I NO TO) as (j & m' & E1 & I' & X & LV & A & FL).
    rewrite E1. cbn [bind]. exists j, m'. do 3 (split; auto). intros c Hc. apply (FIN j m' c (TTop v (val a) (val b))); auto.
    econstructor; eauto. rewrite set_at_same. reflexivity.
  - destruct NO as (NE & (l & r & HV) & FE).
    assert (forall e, In e es -> In (e_prime e) L2 /\ In (e_sub e) L2) as CH.
    { intros e He. split; apply (PF L1 i L2 EL nd); auto; apply in_children; eauto 10. }
    assert (exists es1 tes1, mapM (fun e => get (ud (e_prime e))) es = Ok (map e_prime es1) /\
              mapM (fun e => get (ud (e_sub e))) es = Ok (map e_sub es1) /\ map e_param es1 = ws /\ map tw tes1 = map val ws /\
              Forall2 (fun e te => relab (set_at f i (map val ws)) hs (e_prime e) (tp te) /\ relab (set_at f i (map val ws)) hs (e_sub e) (ts te)) es tes1 /\
              Forall2 (elem_at val m (n_vt nd)) es1 tes1) as (es1 & tes1 & E1 & E2 & E3 & E4 & F1 & F2).
    { clear Eb NE FIN HV. remember (set_at f i (map val ws)) as f' eqn:Ef. clear Ef. revert ws HW. induction es as [|e es IH]; intros ws HW.
      - destruct ws; [|discriminate]. exists [], []. repeat (split; [reflexivity|]). split; constructor.
      - destruct ws as [|w ws]; [discriminate|]. inversion FE as [|? ? (_ & _ & V1 & V2) FE']; subst.
        destruct (IH FE') with (ws := ws) as (es1 & tes1 & E1 & E2 & E3 & E4 & F1 & F2); auto. { intros; apply CH; right; auto. }
        destruct (CH e (or_introl eq_refl)) as [C1 C2].
        destruct (IM _ C1) as (j1 & p1 & t1 & U1 & W1 & A1 & R1 & _). destruct (IM _ C2) as (j2 & p2 & t2 & U2 & W2 & A2 & R2 & _).
        assert (p1 = false :: n_vt nd) as -> by congruence. assert (p2 = true :: n_vt nd) as -> by congruence.
        exists (MkE j1 j2 w :: es1), ((t1, t2, val w) :: tes1). cbn [mapM map e_prime e_sub e_param].
        rewrite U1, U2. cbn [get bind]. rewrite E1, E2. cbn [bind]. do 2 (split; auto). split; [congruence|]. split; [rewrite E4; reflexivity|].
        split; constructor; auto. split; [exact A1|]. split; [exact A2|reflexivity]. }
    rewrite E1. cbn [bind]. rewrite E2. cbn [bind]. rewrite <- E3.
    assert (es1 <> []) as NE1 by (intros ->; apply NE; destruct es as [|e es]; auto; inversion F1; subst; inversion F2).
    destruct (get_conformed_spec val HP fl m (n_vt nd) l r es1 tes1 tes1 I HV NE1 (lifted_direct val m _ _ _ F2)) as (j & m' & tes2 & E5 & I' & X & LV & PM & A & FL).
    rewrite E5. cbn [bind]. exists j, m'. rewrite E3. do 3 (split; auto). intros c Hc. apply (FIN j m' c (TDec tes2)); auto.
    eapply rl_dec; eauto. rewrite set_at_same. exact E4.
Qed.

(** ** SampleParameters *)
Context (G : dops P) (dv : dcar G -> R) (HG : dexact G val dv).
Context (near1 : P -> bool) (near1_one : forall p, val p = 1 -> near1 p = true).
(** each number divided by the sum of all *)
Definition shares (l : list R) : list R := map (fun x => x / rsum (fun y => y) l) l.
(** number of draws for a node *)
Definition need_nd (nd : node) : nat := match n_body nd with BLit _ => 0%nat | BTop _ _ _ => 2%nat | BDec es => length es end.
Definition need_at (hs : heap) (i : nat) : nat :=
  match nth_error hs i with
  | Some nd => need_nd nd
  | None => 0%nat
  end.
Definition need (hs : heap) (L : list nat) : nat := list_sum (map (need_at hs) L).
Lemma draws_spec k : forall s, (k <= length s)%nat -> exists us s', draws G k s = Ok (us, s') /\ s = us ++ s' /\ length us = k.
Proof.
  induction k as [|k IH]; intros s H; [exists [], s; auto|]. destruct s as [|u s]; [simpl in H; lia|].
  destruct (IH s) as (us & s' & E & -> & EL); [simpl in H; lia|]. exists (u :: us), s'. cbn [draws next bind]. rewrite E. cbn. auto.
Qed.
Lemma fold_padd ws : forall acc, val (fold_left padd ws acc) = val acc + rsum val ws.
Proof. induction ws as [|w ws IH]; intros acc; simpl; [lra|]. rewrite IH, (val_add HP). lra. Qed.
Lemma scaled_dist ws z : ws <> [] -> Forall (fun w => 0 < val w) ws -> val z = rsum val ws -> dist (map val (map (fun w => pdiv w z) ws)).
Proof.
  intros NE F Z. assert (0 < val z) as HZ.
  { rewrite Z. apply rsum_pos; rewrite Forall_forall in F; [intros; left; auto|]. destruct ws as [|w ws]; [congruence|]. exists w. split; [left; auto|apply F; left; auto]. }
  rewrite map_map. split.
  - apply Forall_map. eapply Forall_impl; [|exact F]. intros w Hw. rewrite (val_div HP) by lra. apply Rdiv_lt_0_compat; auto.
  - rewrite rsum_map. rewrite (rsum_ext _ (fun w => val w * / val z)) by (intros; rewrite (val_div HP); [reflexivity|lra]).
    rewrite rsum_scal_r, <- Z. field. lra.
Qed.
Lemma scaled_shares us z : Forall (fun u => 0 < dv u) us -> 0 < val z -> val z = rsum dv us -> map val (map (fun w => pdiv w z) (map (d_dec G) us)) = shares (map dv us).
Proof.
  intros F HZ Z. unfold shares. rewrite !map_map, rsum_map. apply map_ext_in. intros u Hu. rewrite Forall_forall in F. rewrite (val_div HP) by lra.
  rewrite (dx_dec HG) by auto. rewrite Z. reflexivity.
Qed.
Lemma sample_params_spec (nd : node) s : (match n_body nd with BDec es => es <> [] | _ => True end) -> Forall (fun u => 0 < dv u) s ->
  (need_nd nd <= length s)%nat ->
  exists ws d s', sample_params G near1 nd s = Ok (ws, s') /\ s = d ++ s' /\
    length d = need_nd nd /\ map val ws = shares (map dv d) /\
    match n_body nd with BLit _ => True | BTop _ _ _ => (exists a b, ws = [a; b] /\ top_ok (val a) (val b)) /\ dist (map val ws) | BDec es => length ws = length es /\ dist (map val ws) end.
Proof.
  intros NE F H. unfold sample_params, need_nd in *. destruct (n_body nd) as [l|v pt pf|es].
  - exists [], [], s. auto 10.
  - destruct s as [|a [|b s]]; try (simpl in H; lia). cbn [next bind]. inversion F as [|? ? Fa F']; subst. inversion F' as [|? ? Fb F'']; subst.
    pose proof (dx_sum HG a b) as S. set (sum := d_sum G a b) in *.
    assert (val (d_ratio G a sum) = dv a / (dv a + dv b)) as Ra by (rewrite (dx_ratio HG), S by lra; auto).
    assert (val (d_ratio G b sum) = dv b / (dv a + dv b)) as Rb by (rewrite (dx_ratio HG), S by lra; auto).
    assert (0 < dv a / (dv a + dv b)) as Pa by (apply Rdiv_lt_0_compat; lra). assert (0 < dv b / (dv a + dv b)) as Pb by (apply Rdiv_lt_0_compat; lra).
    assert (dv a / (dv a + dv b) + dv b / (dv a + dv b) = 1) as P1 by (field; lra).
    rewrite near1_one by (rewrite (val_add HP), Ra, Rb; auto). cbn [Base.assert bind].
    exists [d_ratio G a sum; d_ratio G b sum], [a; b], s. split; auto. split; auto. split; auto.
    split. { unfold shares. simpl. rewrite Ra, Rb, Rplus_0_r. reflexivity. }
    split. { do 2 eexists. split; [reflexivity|]. right. rewrite Ra, Rb. split; [lra|auto]. }
    split; [repeat (constructor; try lra)|]. simpl. lra.
  - destruct (draws_spec (length es) s H) as (us & s' & E & -> & EL). rewrite E. cbn [bind].
    exists (map (fun w => pdiv w (fold_left padd (map (d_dec G) us) pzero)) (map (d_dec G) us)), us, s'. split; auto. split; auto. split; auto.
    assert (us <> []) as NU by (intros ->; apply NE; destruct es; auto; discriminate). apply Forall_app in F as [F _].
    assert (forall u, In u us -> val (d_dec G u) = dv u) as ED. { rewrite Forall_forall in F. intros u Hu. apply (dx_dec HG). auto. }
    assert (val (fold_left padd (map (d_dec G) us) pzero) = rsum dv us) as Z.
    { rewrite fold_padd, (val_zero HP), rsum_map, Rplus_0_l. apply rsum_ext. auto. }
    split. { apply scaled_shares; auto. rewrite Z. rewrite Forall_forall in F. apply rsum_pos; [intros; left; auto|]. destruct us as [|u us]; [congruence|]. exists u. split; [left; auto|apply F; left; auto]. }
    split; [rewrite !map_length; auto|]. apply scaled_dist; [intros E0; apply map_eq_nil in E0; auto| |rewrite Z, rsum_map; apply rsum_ext; intros; symmetry; auto].
    apply Forall_map. rewrite Forall_forall in *. intros u Hu. rewrite ED; auto.
Qed.
Lemma concat_need (hs : heap) (D : nat -> list (dcar G)) L : (forall i, In i L -> length (D i) = need_at hs i) -> length (concat (map D (rev L))) = need hs L.
Proof.
  induction L as [|i L IH]; intros H; auto. cbn [rev]. rewrite map_app, concat_app, app_length, IH by (intros; apply H; right; auto).
  cbn [map concat]. rewrite app_nil_r, H by (left; auto). unfold need. simpl. lia.
Qed.
Lemma sample_pass (hs : heap) fl L ud (m : mgr) (s : list (dcar G)) : heap_ok (m_vt m) hs -> topo hs L -> Inv val fl m ->
  Forall (fun u => 0 < dv u) s -> (need hs L <= length s)%nat ->
  exists D s' ud' m', let f := fun i => shares (map dv (D i)) in foldM (sample_step G near1 hs fl) (rev L) (s, (ud, m)) = Ok (s', (ud', m')) /\
    s = concat (map D (rev L)) ++ s' /\ (forall i, In i L -> length (D i) = need_at hs i) /\
    Inv val fl m' /\ mext fl m m' /\ (forall i, In i L -> rimage f hs fl m' ud' i) /\ (forall i, ~ In i L -> ud' i = ud i) /\
    (forall i nd, In i L -> nth_error hs i = Some nd -> match n_body nd with BLit _ => True | _ => dist (f i) end).
Proof.
  intros HO TP I F HN.
  destruct (bottom_up (sample_step G near1 hs fl) (fun L2 st => exists D, let f := fun i => shares (map dv (D i)) in s = concat (map D (rev L2)) ++ fst st /\ (forall i, In i L2 -> length (D i) = need_at hs i) /\
    Inv val fl (snd (snd st)) /\ mext fl m (snd (snd st)) /\ (forall i, In i L2 -> rimage f hs fl (snd (snd st)) (fst (snd st)) i) /\ (forall i, ~ In i L2 -> fst (snd st) i = ud i) /\
    (forall i nd, In i L2 -> nth_error hs i = Some nd -> match n_body nd with BLit _ => True | _ => dist (f i) end)) L (s, (ud, m)))
    as ([s' [ud' m']] & E & D & H1 & H2 & H3 & H4 & H5 & H6 & H7).
  - intros L1 i L2 [s0 [ud0 m0]] EL (D & H1 & H2 & H3 & H4 & H5 & H6 & H7). cbn [fst snd] in *.
    destruct TP as (ND & PF & HL).
    assert (i < length hs)%nat as Hi by (apply HL; rewrite EL; apply in_elt).
    apply nth_error_Some in Hi. destruct (nth_error hs i) as [nd|] eqn:En; [|congruence].
    pose proof (HO _ _ En) as NO.
    assert (Forall (fun u => 0 < dv u) s0) as F0 by (rewrite H1 in F; apply Forall_app in F; tauto).
    assert (need_at hs i <= length s0)%nat as N2.
    { rewrite EL in HN. unfold need in HN. rewrite map_app, list_sum_app in HN. simpl in HN. rewrite H1, app_length in HN.
      rewrite concat_need with (hs := hs) in HN by auto. unfold need in HN. lia. }
    destruct (sample_params_spec nd s0) as (ws & d' & s1 & E1 & E2 & E3 & E3' & E4); auto.
    { unfold node_ok in NO. destruct (n_body nd); auto. tauto. } { unfold need_at in N2. rewrite En in N2. exact N2. }
    destruct (relab_step_spec (fun k => shares (map dv (D k))) hs fl L L1 i L2 ud0 m0 ws nd) as (j & m1 & E5 & I1 & X1 & IM1); auto.
    { rewrite (me_vt _ _ _ H4). auto. } { split; auto. } { destruct (n_body nd); tauto. }
    exists (s1, (set_ud ud0 i (Some j), m1)). split.
    { unfold sample_step, node_of. rewrite En. cbn [get bind fst snd]. rewrite E1. cbn [bind]. rewrite E5. reflexivity. }
    assert (~ In i L2) as NI by (apply (NoDup_app_nin L1 L2 i); rewrite <- EL; exact ND).
    exists (set_at D i d'). cbn [fst snd]. split.
    { cbn [rev]. rewrite map_app, concat_app. cbn [map concat]. rewrite set_at_same, app_nil_r, <- app_assoc, <- E2, H1. f_equal. f_equal. apply map_ext_in.
      intros c Hc. rewrite set_at_other; auto. intros ->. apply NI. apply in_rev. auto. }
    split. { intros c Hc. destruct (Nat.eq_dec c i) as [->|Nc]; [rewrite set_at_same, E3; unfold need_at; rewrite En; auto|]. rewrite set_at_other by auto. apply H2. destruct Hc; [congruence|auto]. }
    assert (forall k, set_at (fun k => shares (map dv (D k))) i (map val ws) k = shares (map dv (set_at D i d' k))) as SF.
    { intros k. destruct (Nat.eq_dec k i) as [->|Nk]; [rewrite !set_at_same; auto|rewrite !set_at_other; auto]. }
    split; auto. split; [eapply mext_trans; eauto|]. split.
    { intros c Hc. destruct (IM1 c Hc) as (j' & p & t' & Q1 & Q2 & Q3 & Q4 & Q5). exists j', p, t'. split; auto. split; auto. split; auto. split; auto.
      eapply relab_ext; [|exact Q4]. intros k _. apply SF. }
    split.
    { intros c Hc. unfold set_ud. destruct (Nat.eqb c i) eqn:Ec; [apply Nat.eqb_eq in Ec; subst; exfalso; apply Hc; left; auto|]. apply H6. intros K0. apply Hc. right; auto. }
    intros c nd' Hc Ec. destruct (Nat.eq_dec c i) as [->|Nc].
    + rewrite En in Ec. injection Ec as <-. rewrite <- SF, set_at_same. destruct (n_body nd); tauto.
    + rewrite set_at_other by auto. apply H7; auto. destruct Hc; [congruence|auto].
  - exists (fun _ => []). cbn [fst snd]. split; auto. split; [intros i []|]. split; auto. split; [apply mext_refl|]. split; [intros i []|]. split; auto. intros i nd [].
  - cbn [fst snd] in *. exists D, s', ud', m'. cbn zeta. auto 12.
Qed.
Lemma mapM_ok_in {A B} (f : A -> res B) (Q : A -> B -> Prop) l : (forall a, In a l -> exists b, f a = Ok b /\ Q a b) -> exists bs, mapM f l = Ok bs /\ Forall2 Q l bs.
Proof.
  induction l as [|a l IH]; intros H; [exists []; split; [auto|constructor]|]. destruct (H a (or_introl eq_refl)) as (b & E & HQ).
  destruct IH as (bs & E' & F); [intros; apply H; right; auto|]. exists (b :: bs). cbn [mapM]. rewrite E. cbn [bind]. rewrite E'. split; [auto|constructor; auto].
Qed.
(** all roots at the same depth (in particular a single root) *)
Theorem sample_spec_multi (hs : heap) ud roots fl s (m : mgr) dp : heap_ok (m_vt m) hs -> Inv val fl m ->
  (forall r, In r roots -> (r < length hs)%nat /\ depth hs r = dp) -> Forall (fun u => 0 < dv u) s ->
  exists L, SerializePsddNodes hs roots = Ok L /\ ((need hs L <= length s)%nat ->
  exists rs D s' ud' m', let f := fun i => shares (map dv (D i)) in SampleParametersForMultiplePsdds G near1 hs ud roots fl s m = Ok (rs, s', ud', m') /\
    s = concat (map D (rev L)) ++ s' /\ (forall i, In i L -> length (D i) = need_at hs i) /\
    Inv val fl m' /\ mext fl m m' /\
    Forall2 (fun r r' => exists p t', vt_of hs r = Some p /\ node_at val m' r' p t' /\ relab f hs r t' /\ dists f hs r /\ flag_of (m_heap m') r' = Some fl /\ In r' (m_live m')) roots rs /\
    (forall i, In i L -> ud' i = None) /\ (forall i, ~ In i L -> ud' i = ud i)).
Proof.
  intros HO I HR F.
  pose proof (heap_ok_closed _ _ HO) as CL. pose proof (heap_ok_graded _ _ HO) as GR.
  assert (forall r, In r roots -> (r < length hs)%nat) as HR1 by (intros r Hr; apply HR; auto).
  destruct (serialize_spec hs roots CL HR1) as (L & E & ND & IN & _). exists L. split; auto. intros HN.
  assert (parent_first hs L) as PF by (eapply (serialize_parent_first hs roots dp); eauto; intros r Hr; apply HR; auto).
  assert (topo hs L) as TP. { split; auto. split; auto. intros i Hi. apply IN in Hi as (r & Hr & Ri). pose proof (reach_le _ _ _ _ HO Ri). specialize (HR1 r Hr). lia. }
  destruct (sample_pass hs fl L ud m s HO TP I F HN) as (D & s' & ud' & m' & E1 & H1 & H2 & H3 & H4 & H5 & H6 & H7). set (f := fun i => shares (map dv (D i))) in *.
  destruct (mapM_ok_in (fun r => get (ud' r)) (fun r r' => exists p t', vt_of hs r = Some p /\ node_at val m' r' p t' /\ relab f hs r t' /\ dists f hs r /\ flag_of (m_heap m') r' = Some fl /\ In r' (m_live m')) roots) as (rs & E2 & F2).
  { intros r Hr. assert (In r L) as HrL by (apply IN; exists r; split; auto; constructor).
    destruct (H5 r HrL) as (j & p & t' & U & V & A & RL & FL & LV). exists j. rewrite U. split; auto. exists p, t'. repeat (split; auto).
    intros k nd Rk Ek. apply H7; auto. apply IN. eauto. }
  exists rs, D, s', (clear_ud L ud'), m'. cbn zeta. split.
  { unfold SampleParametersForMultiplePsdds. rewrite E. cbn [bind]. rewrite E1. cbn [bind fst snd]. rewrite E2. reflexivity. }
  repeat (split; auto). intros i Hi; rewrite clear_ud_spec.
  - assert (memb i L = true) as -> by (apply memb_In; auto). auto.
  - intros i Hi. rewrite clear_ud_spec. assert (memb i L = false) as -> by (apply memb_false; auto). auto.
Qed.
Theorem sample_params_full (m : mgr) fl root s t ud us : tidy val fl m -> psdd_at val m root s t ->
  Forall (fun u => 0 < dv u) us ->
  exists L, SerializePsddNodes (m_heap m) [root] = Ok L /\ ((need (m_heap m) L <= length us)%nat ->
  exists r us' ud' m' t', SampleParameters G near1 (m_heap m) ud root fl us m = Ok (r, us', ud', m') /\ mext fl m m' /\
    psdd_at val m' r s t' /\ flag_of (m_heap m') r = Some fl /\ In r (m_live m') /\
    (forall x, base t' x = base t x) /\ positive t' /\ normalized t' /\ (deterministic t -> deterministic t') /\
    (exists D, us = concat (map D (rev L)) ++ us' /\ (forall i, In i L -> length (D i) = need_at (m_heap m) i) /\
       relab (fun i => shares (map dv (D i))) (m_heap m) root t') /\
    (forall i, In i L -> ud' i = None) /\ (forall i, ~ In i L -> ud' i = ud i)).
Proof.
  intros T A F. pose proof (tidy_inv val HP fl m T) as I. destruct (psdd_at_facts val m root s t A) as (HO & _). destruct A as (W & HR & p & V & S).
  destruct (sample_spec_multi (m_heap m) ud [root] fl us m (depth (m_heap m) root) HO I) as (L & E & K); auto.
  { intros r [<-|[]]. split; auto. eapply Rep_lt; eauto. }
  exists L. split; auto. intros HN. destruct (K HN) as (rs & D & s' & ud' & m' & E1 & H1 & H2 & H3 & H4 & H5 & H6 & H7).
  inversion H5 as [|? r ? ? (p' & t' & V' & [A1 A2] & RL & DS & FL & LV) H5']; subst. inversion H5'; subst.
  assert (p' = p) as -> by congruence.
  exists r, s', ud', m', t'. split. { unfold SampleParameters. rewrite E1. reflexivity. }
  split; auto. split. { split; [apply H3|]. split; auto. exists p. rewrite (me_vt _ _ _ H4). auto. }
  destruct (relab_facts _ (m_heap m) t root t' HR RL) as (B1 & B2 & B3). destruct (B3 DS). repeat (split; auto). exists D. auto.
Qed.
End Relab.
