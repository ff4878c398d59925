(** Learning without smoothing, parameters that no record supports included (C88). *)
From Coq Require Import Reals Lra.
From Verif Require Import Base Param Vtree VtreeProofs Spec SpecProofs Heap Manager HeapProofs SerProofs RepProofs OrderProofs CanonProofs LoadProofs
  MulProofs ReplayProofs TreeProofs Query QueryProofs MpeProofs SampleProofs Learn LearnProofs CountProofs LikeProofs.
Local Open Scope R_scope.

(** top nodes whose parameters add up to one; the leaves of a constant-true node do not *)
Definition sums (_ : N) (a b : R) : Prop := a + b = 1.
Lemma sums_fun v a b b' : sums v a b -> sums v a b' -> b = b'.
Proof. unfold sums. lra. Qed.
(** parameters that are not negative and add up to one *)
Definition wdist (l : list R) : Prop := Forall (fun a => 0 <= a) l /\ rsum (fun a => a) l = 1.
Definition wdists {P : pops} (f : nat -> list R) (h : heap P) (i : nat) : Prop := forall j nd, reach h i j -> nth_error h j = Some nd ->
  match n_body nd with BLit _ => True | _ => wdist (f j) end.

Section Mle.
Context {P : pops} (val : P -> R) (HP : pexact P val).
Notation heap := (heap P). Notation mgr := (mgr P). Notation node := (node P).
Notation Rep := (Rep val).
Notation InvS := (InvT val sums).

Lemma relab_sums f (h : heap) t' : forall i, relab f h i t' -> wdists f h i -> nonneg t' /\ normalized t'.
Proof.
  induction t' as [z|v a b|tes IH] using ptree_ind2; intros i H D;
    inversion H as [i0 nd l E1 E2|i0 nd v' pt pf a' b' E1 E2 E3|i0 nd es tes0 tes' E1 E2 F EW PM]; subst.
  - unfold nonneg, normalized. simpl. auto.
  - pose proof (D i nd (reach_refl _ _) E1) as Q. rewrite E2, E3 in Q. destruct Q as [Q1 Q2]. inversion Q1 as [|? ? K1 K2]; subst. inversion K2; subst.
    simpl in Q2. unfold nonneg, normalized. simpl. repeat split; auto; lra.
  - assert (Forall (fun te => (forall i, relab f h i (tp te) -> wdists f h i -> nonneg (tp te) /\ normalized (tp te)) /\
       (forall i, relab f h i (ts te) -> wdists f h i -> nonneg (ts te) /\ normalized (ts te))) tes0) as IH'.
    { eapply Permutation_Forall; [apply Permutation_sym; eauto|exact IH]. }
    assert (forall e, In e es -> wdists f h (e_prime e) /\ wdists f h (e_sub e)) as DC.
    { intros e He. split; intros j nd' Rj Ej; apply (D j nd'); auto; (eapply reach_step; [exact E1| |exact Rj]); apply in_children; eauto 10. }
    assert (Forall (fun te => (nonneg (tp te) /\ normalized (tp te)) /\ (nonneg (ts te) /\ normalized (ts te))) tes) as K.
    { eapply Permutation_Forall; [exact PM|]. apply Forall_forall. intros te Hte. rewrite Forall_forall in IH'. destruct (IH' te Hte) as [I1 I2].
      apply In_nth_error in Hte as [k Hk]. destruct (Forall2_nth_r _ _ _ F k te Hk) as (e & Ee & R1 & R2). apply nth_error_In in Ee. destruct (DC e Ee). eauto. }
    assert (wdist (map tw tes0)) as [W1 W2]. { specialize (D i nd (reach_refl _ _) E1). rewrite E2, <- EW in D. exact D. }
    rewrite rsum_map in W2. split; apply all_nodes_dec; split.
    + eapply Permutation_Forall; [exact PM|]. rewrite Forall_map in W1. exact W1.
    + eapply Forall_impl; [|exact K]. simpl. tauto.
    + rewrite <- (rsum_perm _ _ _ PM). exact W2.
    + eapply Forall_impl; [|exact K]. simpl. tauto.
Qed.
(** GetConformedPsddDecisionNode on nodes of the children *)
Lemma conformed_sums fl (m : mgr) p l r es tes : InvS fl m -> subtree (m_vt m) p = Some (VNode l r) -> es <> [] -> Forall2 (elem_at val m p) es tes ->
  exists i m' tes', GetConformedPsddDecisionNode m (map e_prime es) (map e_sub es) (map e_param es) fl = Ok (i, m') /\
    InvS fl m' /\ mext fl m m' /\ In i (m_live m') /\ Permutation tes tes' /\ node_at val m' i p (TDec tes') /\ flag_of (m_heap m') i = Some fl.
Proof.
  intros I HV NE F.
  assert (direct m p es) as DI. { clear - F. unfold direct. induction F as [|e te es tes ((V1 & _) & (V2 & _) & _) F IH]; constructor; auto. }
  destruct (new_decT_spec val HP sums sums_fun fl m p es tes I) as (i & m' & tes' & E & K); eauto.
  { clear - F. induction F as [|e te es tes ((_ & R1) & (_ & R2) & W) F IH]; constructor; auto. split; auto. }
  exists i, m', tes'. split; [|exact K]. rewrite (conformed_direct m p l r es fl HV NE DI).
  unfold new_dec in E. pose proof (mk_elems_own es []) as E2. cbn [app length] in E2. rewrite E2 in E by (destruct es; [congruence|discriminate]). cbn [bind] in E. exact E.
Qed.
Lemma relab_step_sums f (hs : heap) fl L L1 i L2 ud (m : mgr) ws nd :
  heap_ok (m_vt m) hs -> topo hs L -> L = L1 ++ i :: L2 -> InvS fl m -> (forall c, In c L2 -> rimage val f hs fl m ud c) ->
  nth_error hs i = Some nd ->
  match n_body nd with BLit _ => True | BTop _ _ _ => exists a b, ws = [a; b] /\ val a + val b = 1 | BDec es => length ws = length es end ->
  exists j m', relab_step hs fl (ud, m) i ws = Ok (set_ud ud i (Some j), m') /\ InvS fl m' /\ mext fl m m' /\
    (forall c, In c (i :: L2) -> rimage val (set_at f i (map val ws)) hs fl m' (set_ud ud i (Some j)) c).
Proof.
  intros HO (ND & PF & HL) EL I IM En HW.
  pose proof (NoDup_app_nin L1 L2 i ltac:(rewrite <- EL; exact ND)) as NI.
  assert (forall c t, In c L2 -> relab f hs c t -> relab (set_at f i (map val ws)) hs c t) as RX.
  { intros c t Hc HR. eapply relab_ext; [|exact HR]. intros k Rk. rewrite set_at_other; auto. intros ->. apply NI.
    apply (suffix_reach hs L (L1 ++ [i]) L2 c); auto. rewrite <- app_assoc. exact EL. }
  assert (forall j (m' : mgr) c t', mext fl m m' -> In c (i :: L2) ->
    node_at val m' j (n_vt nd) t' -> relab (set_at f i (map val ws)) hs i t' -> flag_of (m_heap m') j = Some fl -> In j (m_live m') ->
    rimage val (set_at f i (map val ws)) hs fl m' (set_ud ud i (Some j)) c) as FIN.
  { intros j m' c t' X Hc A LD FL LV. destruct Hc as [<-|Hc].
    - exists j, (n_vt nd), t'. unfold set_ud. rewrite Nat.eqb_refl. unfold vt_of. rewrite En. auto 12.
    - destruct (IM c Hc) as (j' & p & t & H1 & H2 & H3 & H4 & H5 & H6). exists j', p, t.
      split. { unfold set_ud. destruct (Nat.eqb c i) eqn:E; auto. apply Nat.eqb_eq in E. subst. contradiction. }
      split; auto. split; [eapply node_at_ext; eauto|]. split; auto. split; [eapply flag_of_ext; eauto|apply (me_live _ _ _ X); auto]. }
  unfold relab_step, node_of. rewrite En. cbn [get bind]. pose proof (HO _ _ En) as NO. unfold node_ok in NO.
  destruct (n_body nd) as [l|v pt pf|es] eqn:Eb.
  - destruct (literalT_spec val HP sums sums_fun fl m l (n_vt nd) I NO) as (j & m' & E1 & I' & X & LV & A & FL).
    rewrite E1. cbn [bind]. exists j, m'. do 3 (split; auto). intros c Hc. apply (FIN j m' c (TLit l)); auto. econstructor; eauto.
  - destruct HW as (a & b & -> & TO). destruct (topT_spec val HP sums sums_fun fl m v a b (n_vt nd) I NO TO) as (j & m' & E1 & I' & X & LV & A & FL).
    rewrite E1. cbn [bind]. exists j, m'. do 3 (split; auto). intros c Hc. apply (FIN j m' c (TTop v (val a) (val b))); auto.
    econstructor; eauto. rewrite set_at_same. reflexivity.
  - destruct NO as (NE & (l & r & HV) & FE).
    assert (forall e, In e es -> In (e_prime e) L2 /\ In (e_sub e) L2) as CH.
    { intros e He. split; apply (PF L1 i L2 EL nd); auto; apply in_children; eauto 10. }
    assert (exists es1 tes1, mapM (fun e => get (ud (e_prime e))) es = Ok (map e_prime es1) /\
              mapM (fun e => get (ud (e_sub e))) es = Ok (map e_sub es1) /\ map e_param es1 = ws /\ map tw tes1 = map val ws /\
              Forall2 (fun e te => relab (set_at f i (map val ws)) hs (e_prime e) (tp te) /\ relab (set_at f i (map val ws)) hs (e_sub e) (ts te)) es tes1 /\
              Forall2 (elem_at val m (n_vt nd)) es1 tes1) as (es1 & tes1 & E1 & E2 & E3 & E4 & F1 & F2).
    { clear Eb NE FIN HV. remember (set_at f i (map val ws)) as f' eqn:Ef. clear Ef. revert ws HW. induction es as [|e es IH]; intros ws HW.
      - destruct ws; [|discriminate]. exists [], []. repeat (split; [reflexivity|]). split; constructor.
      - destruct ws as [|w ws]; [discriminate|]. inversion FE as [|? ? (_ & _ & V1 & V2) FE']; subst.
        destruct (IH FE') with (ws := ws) as (es1 & tes1 & E1 & E2 & E3 & E4 & F1 & F2); auto. { intros; apply CH; right; auto. }
        destruct (CH e (or_introl eq_refl)) as [C1 C2].
        destruct (IM _ C1) as (j1 & p1 & t1 & U1 & W1 & A1 & R1 & _). destruct (IM _ C2) as (j2 & p2 & t2 & U2 & W2 & A2 & R2 & _).
        assert (p1 = false :: n_vt nd) as -> by congruence. assert (p2 = true :: n_vt nd) as -> by congruence.
        exists (MkE j1 j2 w :: es1), ((t1, t2, val w) :: tes1). cbn [mapM map e_prime e_sub e_param].
        rewrite U1, U2. cbn [get bind]. rewrite E1, E2. cbn [bind]. do 2 (split; auto). split; [congruence|]. split; [rewrite E4; reflexivity|].
        split; constructor; auto. split; [exact A1|]. split; [exact A2|reflexivity]. }
    rewrite E1. cbn [bind]. rewrite E2. cbn [bind]. rewrite <- E3.
    assert (es1 <> []) as NE1 by (intros ->; apply NE; destruct es as [|e es]; auto; inversion F1; subst; inversion F2).
    destruct (conformed_sums fl m (n_vt nd) l r es1 tes1 I HV NE1 F2) as (j & m' & tes2 & E5 & I' & X & LV & PM & A & FL).
    rewrite E5. cbn [bind]. exists j, m'. rewrite E3. do 3 (split; auto). intros c Hc. apply (FIN j m' c (TDec tes2)); auto.
    eapply rl_dec; eauto. rewrite set_at_same. exact E4.
Qed.
(** ** The parameters *)
Lemma rn_nonneg n : 0 <= rn n.
Proof. apply IZR_le. lia. Qed.
Lemma freqs_wdist alpha ns : 0 <= alpha -> 0 < rsum (fun k => rn k + alpha) ns -> wdist (freqs alpha ns).
Proof.
  intros A C. split.
  - unfold freqs. apply Forall_map, Forall_forall. intros n _. pose proof (rn_nonneg n). apply Rmult_le_pos; [lra|left; apply Rinv_0_lt_compat; auto].
  - unfold freqs. rewrite rsum_map. unfold Rdiv. rewrite rsum_scal_r. apply Rinv_r. lra.
Qed.
Lemma smooth_sums alpha (ns : list N) z : 0 < rsum (fun k => rn k + val alpha) ns -> val z = rsum (fun k => rn k + val alpha) ns ->
  map val (map (fun w => pdiv w z) (map (fun n => padd (pnat n) alpha) ns)) = freqs (val alpha) ns.
Proof.
  intros C Z. unfold freqs. rewrite !map_map. apply map_ext_in. intros n Hn. rewrite (val_div HP) by lra. rewrite (val_count val HP), Z. reflexivity.
Qed.
Lemma learn_params_sums (dc : counts) alpha i (nd : node) : length (dc i) = arity nd -> 0 <= val alpha ->
  match n_body nd with BLit _ => True | _ => 0 < rsum (fun k => rn k + val alpha) (dc i) end ->
  exists ws, learn_params dc alpha i nd = Ok ws /\ map val ws = freqs (val alpha) (dc i) /\
    match n_body nd with
    | BLit _ => True
    | BTop _ _ _ => exists a b, ws = [a; b] /\ val a + val b = 1
    | BDec es => length ws = length es
    end.
Proof.
  unfold arity, learn_params. intros EL A0 C. destruct (n_body nd) as [l|v pt pf|es].
  - exists []. destruct (dc i); [auto|discriminate].
  - pose proof (freqs_wdist (val alpha) (dc i) A0 C) as [_ D].
    destruct (dc i) as [|a [|b [|c ns]]]; try discriminate. cbn [nth_error get bind].
    pose proof (smooth_sums alpha [a; b] (padd (padd (pnat a) alpha) (padd (pnat b) alpha)) C) as E.
    rewrite (val_add HP), !(val_count val HP) in E. specialize (E ltac:(simpl; lra)).
    eexists. split; [reflexivity|]. split; [exact E|]. do 2 eexists. split; [reflexivity|].
    cbn [map] in E. rewrite <- E in D. simpl in D. lra.
  - rewrite <- EL, nth_seq. cbn [bind]. exists (smooth alpha (dc i)). split; auto.
    split; [|unfold smooth; rewrite !map_length; auto].
    apply smooth_sums; auto. rewrite (fold_padd val HP), (val_zero HP), rsum_map. rewrite Rplus_0_l. apply rsum_ext. intros. apply (val_count val HP).
Qed.
Lemma learn_pass_sums (hs : heap) fl L ud (m : mgr) (dc : counts) alpha : heap_ok (m_vt m) hs -> topo hs L -> InvS fl m -> 0 <= val alpha ->
  (forall i nd, In i L -> nth_error hs i = Some nd -> length (dc i) = arity nd /\
     match n_body nd with BLit _ => True | _ => 0 < rsum (fun k => rn k + val alpha) (dc i) end) ->
  let f := fun i => freqs (val alpha) (dc i) in
  exists ud' m', foldM (learn_step hs dc alpha fl) (rev L) (ud, m) = Ok (ud', m') /\
    InvS fl m' /\ mext fl m m' /\ (forall i, In i L -> rimage val f hs fl m' ud' i) /\ (forall i, ~ In i L -> ud' i = ud i).
Proof.
  intros HO TP I A0 HD f.
  destruct (bottom_up (learn_step hs dc alpha fl) (fun L2 st =>
    InvS fl (snd st) /\ mext fl m (snd st) /\ (forall i, In i L2 -> rimage val f hs fl (snd st) (fst st) i) /\ (forall i, ~ In i L2 -> fst st i = ud i)) L (ud, m))
    as ([ud' m'] & E & H1 & H2 & H3 & H4).
  - intros L1 i L2 [ud0 m0] EL (H3 & H4 & H5 & H6). cbn [fst snd] in *.
    pose proof TP as (ND & PF & HL).
    assert (i < length hs)%nat as Hi by (apply HL; rewrite EL; apply in_elt).
    apply nth_error_Some in Hi. destruct (nth_error hs i) as [nd|] eqn:En; [|congruence].
    destruct (HD i nd ltac:(rewrite EL; apply in_elt) En) as [HL1 HF].
    destruct (learn_params_sums dc alpha i nd HL1 A0 HF) as (ws & E1 & EW & K).
    destruct (relab_step_sums f hs fl L L1 i L2 ud0 m0 ws nd) as (j & m1 & E5 & I1 & X1 & IM1); auto.
    { rewrite (me_vt _ _ _ H4). auto. }
    exists (set_ud ud0 i (Some j), m1). split.
    { unfold learn_step, node_of. rewrite En. cbn [get bind]. rewrite E1. cbn [bind]. exact E5. }
    cbn [fst snd]. split; auto. split; [eapply mext_trans; eauto|]. split.
    { intros c Hc. destruct (IM1 c Hc) as (j' & p & t' & Q1 & Q2 & Q3 & Q4 & Q5). exists j', p, t'. split; auto. split; auto. split; auto. split; auto.
      eapply relab_ext; [|exact Q4]. intros k _. destruct (Nat.eq_dec k i) as [->|Nk]; [rewrite set_at_same; auto|rewrite set_at_other; auto]. }
    intros c Hc. unfold set_ud. destruct (Nat.eqb c i) eqn:Ec; [apply Nat.eqb_eq in Ec; subst; exfalso; apply Hc; left; auto|]. apply H6. intros G. apply Hc. right; auto.
  - cbn [fst snd]. split; auto. split; [apply mext_refl|]. split; [intros i []|]. auto.
  - cbn [fst snd] in *. exists ud', m'. auto 10.
Qed.
End Mle.

(** ** The greatest likelihood, parameters of unsupported elements included *)
Lemma gibbs_sums (l : list (R * R)) : (forall p, In p l -> 0 <= fst p /\ 0 <= snd p /\ (0 < fst p -> 0 < snd p)) -> rsum snd l = 1 -> 0 < rsum fst l ->
  rsum (fun p => fst p * ln (snd p)) l <= rsum (fun p => fst p * ln (fst p / rsum fst l)) l.
Proof.
  intros HP S HC. set (C := rsum fst l) in *.
  set (d := fun p : R * R => (snd p * C - fst p) - fst p * (ln (snd p) - ln (fst p / C))).
  assert (forall p, In p l -> 0 <= d p) as D.
  { intros p Hp. destruct (HP p Hp) as (A0 & B0 & AB). unfold d. destruct A0 as [A|A]; [|rewrite <- A, Rmult_0_l; assert (0 <= snd p * C) by (apply Rmult_le_pos; lra); lra].
    pose proof (AB A) as B. assert (0 < fst p / C) as Q by (apply Rdiv_lt_0_compat; auto).
    assert (ln (snd p) - ln (fst p / C) = ln (snd p / (fst p / C))) as ->.
    { unfold Rdiv at 2. rewrite ln_mult; [|auto|apply Rinv_0_lt_compat; auto]. rewrite ln_Rinv by auto. lra. }
    assert (0 < snd p / (fst p / C)) as Y by (apply Rdiv_lt_0_compat; auto).
    destruct (ln_below _ Y) as [L1 _].
    assert (snd p * C - fst p = fst p * (snd p / (fst p / C) - 1)) as -> by (field; split; apply Rgt_not_eq; auto).
    rewrite <- Rmult_minus_distr_l. apply Rmult_le_pos; lra. }
  assert (rsum d l = rsum (fun p => fst p * ln (fst p / C)) l - rsum (fun p => fst p * ln (snd p)) l) as E.
  { assert (forall l, rsum d l = C * rsum snd l - rsum fst l + (rsum (fun p => fst p * ln (fst p / C)) l - rsum (fun p => fst p * ln (snd p)) l)) as K.
    { intros l0. induction l0 as [|p l0 IH]; [simpl; ring|]. rewrite !rsum_cons, IH. unfold d. ring. }
    rewrite K, S. fold C. lra. }
  assert (0 <= rsum d l) as Z by (apply rsum_nonneg; intros; apply D; auto). lra.
Qed.
Section Zero.
Context {P : pops} (val : P -> R).
Notation heap := (heap P). Notation mgr := (mgr P). Notation node := (node P).
Notation Rep := (Rep val).
Context (vroot : vtree) (h : heap) (HO : heap_ok vroot h) (T : nat -> ptree) (HT : forall i, (i < length h)%nat -> Rep h i (T i)).
Context (root : nat) (L : list nat) (SO : ser_of h root L) (D : deterministic (T root)) (recs : list inst).
Notation pick := (pick h T root). Notation cnt := (cnt h T root recs). Notation params := (params h L). Notation ar := (ar h).
Let RL : (root < length h)%nat := root_lt vroot h HO root L SO.

Definition used (g : nat -> list R) : Prop := forall x p, In x recs -> In p (pick x) -> 0 < par g p.
Lemma pick_base x p : In p (pick x) -> base (T root) x = true.
Proof. intros H. destruct (base (T root) x) eqn:B; auto. unfold LikeProofs.pick in H. rewrite (chosen_off val vroot h HO T HT (S root) x root RL B) in H. destruct H. Qed.
Lemma base_relab g t' x : relab g h root t' -> base t' x = base (T root) x.
Proof. intros R. apply (proj1 (relab_facts val g h _ _ _ (HT root RL) R)). Qed.
Lemma used_weight g t' x : relab g h root t' -> used g -> In x recs -> base t' x = true -> 0 < weight t' x.
Proof.
  intros R U Hx B. rewrite (base_relab g t' x R) in B. rewrite (pick_weight val vroot h HO T HT root L SO D g t' x R B). apply rprod_pos. intros p Hp. eapply U; eauto.
Qed.
Lemma used_ln g t' : relab g h root t' -> used g -> 0 < likelihood recs t' /\ ln (likelihood recs t') = rsum (fun p => cnt p * ln (par g p)) params.
Proof.
  intros R U. assert (forall x, In x (filter (base t') recs) -> 0 < weight t' x) as W. { intros x Hx. apply filter_In in Hx as [Hx B]. eapply used_weight; eauto. }
  split; [apply rprod_pos; auto|]. unfold likelihood. rewrite ln_rprod by auto. rewrite rsum_filter.
  transitivity (rsum (fun x => rsum (fun p => if in_dec dec2 p (pick x) then ln (par g p) else 0) params) recs).
  - apply rsum_ext. intros x Hx. rewrite (base_relab g t' x R).
    rewrite <- (rsum_sub dec2 (fun p => ln (par g p)) (pick x) params); [|apply (chosen_nodup val vroot h HO T HT); auto|exact (params_nodup h root L SO)|exact (pick_params val vroot h HO T HT root L SO x)].
    destruct (base (T root) x) eqn:B.
    + rewrite (pick_weight val vroot h HO T HT root L SO D g t' x R B). apply ln_rprod. intros p Hp. eapply U; eauto.
    + unfold LikeProofs.pick. rewrite (chosen_off val vroot h HO T HT); auto.
  - rewrite rsum_swap. apply rsum_ext. intros p _. unfold LikeProofs.cnt. rewrite <- rsum_scal_r. apply rsum_ext. intros x _. destruct (in_dec dec2 p (pick x)); lra.
Qed.
Lemma relab_wdists g t' : relab g h root t' -> nonneg t' -> normalized t' -> wdists g h root.
Proof.
  intros R NN NO j nd Hj E. destruct (relab_all h g _ root j t' R NO Hj) as (u & RU & NU). destruct (relab_all h g _ root j t' R NN Hj) as (u' & RU' & NU').
  apply all_nodes_root in NU. apply all_nodes_root in NU'. 
  inversion RU as [i0 nd' l E1 E2|i0 nd' v pt pf a b E1 E2 E3|i0 nd' es' tes tes' E1 E2 F EW PM]; subst; assert (nd' = nd) as -> by congruence; rewrite E2; auto;
  inversion RU' as [i0 nd' l1 E1' E2'|i0 nd' v1 pt1 pf1 a1 b1 E1' E2' E3'|i0 nd' es1 tes1 tes1' E1' E2' F' EW' PM']; subst; assert (nd' = nd) as -> by congruence; try congruence.
  - rewrite E3' in E3. injection E3 as -> ->. rewrite E3'. split; [constructor; [tauto|constructor; [tauto|constructor]]|simpl; simpl in NU; lra].
  - split.
    + rewrite <- EW'. apply Forall_map. eapply Permutation_Forall; [apply Permutation_sym; exact PM'|exact NU'].
    + rewrite <- EW, rsum_map, (rsum_perm _ _ _ PM). exact NU.
Qed.
Lemma cnt_nonneg p : 0 <= cnt p.
Proof. unfold LikeProofs.cnt. apply rsum_nonneg. intros x _. destruct (in_dec dec2 p (pick x)); lra. Qed.
Lemma cnt_used x p : In x recs -> In p (pick x) -> 0 < cnt p.
Proof.
  intros Hx Hp. unfold LikeProofs.cnt. apply rsum_pos; [intros y _; destruct (in_dec dec2 p (pick y)); lra|].
  exists x. split; auto. destruct (in_dec dec2 p (pick x)); [lra|contradiction].
Qed.
Section Learned.
Context (f : nat -> list R) (t' : ptree) (RF : relab f h root t').
Context (HF : forall i nd, reach h root i -> nth_error h i = Some nd -> exists ns, node_counts val h root recs i nd ns /\ f i = freqs 0 ns).
Context (HS : forall i nd ns, reach h root i -> nth_error h i = Some nd -> node_counts val h root recs i nd ns ->
  match n_body nd with BLit _ => True | _ => 0 < rsum (fun k => rn k + 0) ns end).
Lemma at_node j : In j L -> ar j <> 0%nat -> let C := rsum (fun k => cnt (j, k)) (seq 0 (ar j)) in 0 < C /\ forall k, (k < ar j)%nat -> par f (j, k) = cnt (j, k) / C.
Proof.
  intros HjL NZ C. pose proof HjL as Hj. apply (so_in _ _ _ SO) in Hj.
  destruct (nth_error h j) as [nd|] eqn:E; [|unfold LikeProofs.ar in NZ; rewrite E in NZ; congruence].
  destruct (HF j nd Hj E) as (ns & NC & Ef). pose proof (HS j nd ns Hj E NC) as S. pose proof (node_counts_length _ _ _ _ _ _ _ NC) as LE.
  assert (ar j = length ns) as EA by (unfold LikeProofs.ar; rewrite E; auto).
  assert (forall k, (k < ar j)%nat -> cnt (j, k) = nth k (map (fun n => rn n + 0) ns) 0) as EC.
  { intros k Hk. destruct (nth_error ns k) as [n|] eqn:En; [|apply nth_error_None in En; lia].
    rewrite <- (count_cnt val vroot h HO T HT root L SO recs j nd ns k n HjL E NC En). symmetry. apply nth_error_nth. rewrite nth_error_map, En. cbn [option_map]. f_equal. lra. }
  assert (C = rsum (fun n => rn n + 0) ns) as H2.
  { unfold C. rewrite (rsum_ext _ (fun k => nth k (map (fun n => rn n + 0) ns) 0)) by (intros k Hk; apply in_seq in Hk; apply EC; lia).
    replace (ar j) with (length (map (fun n => rn n + 0) ns)) by (rewrite map_length; auto). rewrite <- (rsum_nth (fun a => a)), rsum_map. reflexivity. }
  split.
  - rewrite H2. unfold arity in LE. destruct (n_body nd); auto. rewrite EA, LE in NZ. congruence.
  - intros k Hk. unfold par. cbn [fst snd]. rewrite Ef, EC, H2 by auto. unfold freqs.
    destruct (nth_error ns k) as [n|] eqn:En; [|apply nth_error_None in En; lia].
    rewrite (nth_error_nth (map (fun n => rn n + 0) ns) k 0 (x := rn n + 0)) by (rewrite nth_error_map, En; reflexivity).
    apply nth_error_nth. rewrite nth_error_map, En. reflexivity.
Qed.
Lemma learned_used : used f.
Proof.
  intros x [j k] Hx Hp. pose proof (pick_params val vroot h HO T HT root L SO x _ Hp) as K. apply params_in in K as [HjL Hk].
  destruct (at_node j HjL ltac:(lia)) as [C EF]. rewrite EF by auto. apply Rdiv_lt_0_compat; auto. eapply cnt_used; eauto.
Qed.
Lemma best_node g t'' j : relab g h root t'' -> wdists g h root -> used g -> In j L ->
  rsum (fun k => cnt (j, k) * ln (par g (j, k))) (seq 0 (ar j)) <= rsum (fun k => cnt (j, k) * ln (par f (j, k))) (seq 0 (ar j)).
Proof.
  intros RG WG U HjL. destruct (Nat.eq_dec (ar j) 0) as [Z|NZ]; [rewrite Z; simpl; lra|].
  destruct (at_node j HjL NZ) as [C EF]. pose proof HjL as Hj. apply (so_in _ _ _ SO) in Hj.
  destruct (nth_error h j) as [nd|] eqn:E; [|unfold LikeProofs.ar in NZ; rewrite E in NZ; congruence].
  destruct (relab_sub h g root j t'' RG Hj) as [u RU]. pose proof (relab_len h g j u nd RU E) as LG. pose proof (WG j nd Hj E) as DG.
  assert (length (g j) = ar j /\ wdist (g j)) as [LG' [DG1 DG2]]. { unfold LikeProofs.ar in *. rewrite E in *. unfold arity in *. destruct (n_body nd); [congruence|split; auto..]. }
  set (l := map (fun k => (cnt (j, k), par g (j, k))) (seq 0 (ar j))).
  assert (rsum snd l = 1) as H1. { unfold l. rewrite rsum_map. cbn [snd]. unfold par. cbn [fst snd]. rewrite <- LG'. rewrite <- (rsum_nth (fun a => a)). exact DG2. }
  assert (rsum fst l = rsum (fun k => cnt (j, k)) (seq 0 (ar j))) as H2 by (unfold l; rewrite rsum_map; reflexivity).
  pose proof (gibbs_sums l) as G. rewrite H2 in G. unfold l in G. rewrite !rsum_map in G. cbn [fst snd] in G.
  rewrite (rsum_ext (fun k => cnt (j, k) * ln (par f (j, k))) (fun k => cnt (j, k) * ln (cnt (j, k) / rsum (fun k => cnt (j, k)) (seq 0 (ar j))))) by (intros k Hk; apply in_seq in Hk; rewrite EF by lia; auto).
  apply G; auto.
  - intros p Hp. apply in_map_iff in Hp as (k & <- & Hk). apply in_seq in Hk. cbn [fst snd]. split; [apply cnt_nonneg|]. split.
    + unfold par. cbn [fst snd]. rewrite Forall_forall in DG1. apply DG1, nth_In. lia.
    + intros K. apply cnt_pos in K as (x & Hx & Hp). eapply U; eauto.
  - rewrite <- H1. unfold l. rewrite rsum_map. reflexivity.
Qed.
Lemma zero_mle g t'' : relab g h root t'' -> nonneg t'' -> normalized t'' -> likelihood recs t'' <= likelihood recs t'.
Proof.
  intros RG NN NO. pose proof (relab_wdists g t'' RG NN NO) as WG. destruct (used_ln f t' RF learned_used) as [P1 L1].
  assert (used g \/ exists x p, In x recs /\ In p (pick x) /\ ~ 0 < par g p) as [U|(x & p & Hx & Hp & NP)].
  { destruct (Forall_Exists_dec (fun x => Forall (fun p => 0 < par g p) (pick x)) (fun x => Forall_dec _ (fun p => Rlt_dec 0 (par g p)) (pick x)) recs) as [A|A].
    - left. intros x p Hx Hp. rewrite Forall_forall in A. specialize (A x Hx). rewrite Forall_forall in A. auto.
    - right. apply Exists_exists in A as (x & Hx & A). destruct (Forall_Exists_dec (fun p => 0 < par g p) (fun p => Rlt_dec 0 (par g p)) (pick x)) as [B|B]; [contradiction|].
      apply Exists_exists in B as (p & Hp & B). exists x, p. auto. }
  - destruct (used_ln g t'' RG U) as [P2 L2].
    assert (ln (likelihood recs t'') <= ln (likelihood recs t')) as B.
    { rewrite L1, L2, !rsum_params. apply rsum_le. intros j Hj. eapply best_node; eauto. }
    destruct B as [B|B]; [left; apply ln_lt_inv; auto|right; apply ln_inv; auto].
  - assert (par g p = 0) as Z.
    { assert (0 <= par g p); [|lra]. pose proof (pick_params val vroot h HO T HT root L SO x _ Hp) as K. destruct p as [j k]. apply params_in in K as [HjL Hk].
      apply (so_in _ _ _ SO) in HjL. unfold LikeProofs.ar in Hk. destruct (nth_error h j) as [nd|] eqn:E; [|lia]. pose proof (WG j nd HjL E) as DG.
      destruct (relab_sub h g root j t'' RG HjL) as [u RU]. pose proof (relab_len h g j u nd RU E) as LG. unfold arity in *. unfold par. cbn [fst snd].
      destruct (n_body nd); [lia| |]; destruct DG as [DG _]; rewrite Forall_forall in DG; apply DG, nth_In; lia. }
    assert (likelihood recs t'' = 0) as ->; [|lra]. apply (rprod_zero _ _ x).
    + apply filter_In. split; auto. rewrite (base_relab g t'' x RG). eapply pick_base; eauto.
    + rewrite (pick_weight val vroot h HO T HT root L SO D g t'' x RG (pick_base x p Hp)). apply (rprod_zero _ _ p); auto.
Qed.
End Learned.
End Zero.

(** ** LearnPsddParameters *)
Section Full.
Context {P : pops} (val : P -> R) (HP : pexact P val).
(** every node of the PSDD is reached by a record that satisfies the constraint (or alpha is positive) *)
Definition reached (h : heap P) (root : nat) (recs : list inst) (alpha : R) : Prop := forall i nd ns, reach h root i -> nth_error h i = Some nd ->
  node_counts val h root recs i nd ns -> match n_body nd with BLit _ => True | _ => 0 < rsum (fun k => rn k + alpha) ns end.
Theorem learn_sums (m : mgr P) fl root s t ud (dc : counts) (recs : list inst) (ex : examples) alpha : psdd_at val m root s t -> tops_in val sums m fl ->
  (forall v, In v (leaves s) -> ex v = Some (map (fun x => x v) recs)) ->
  (forall i nd, reach (m_heap m) root i -> nth_error (m_heap m) i = Some nd -> dc i = repeat 0%N (arity nd)) ->
  0 <= val alpha -> reached (m_heap m) root recs (val alpha) ->
  exists r ud' dc' m' t' f, LearnPsddParameters (m_heap m) ud dc root ex (length recs) alpha fl m = Ok (r, ud', dc', m') /\ mext fl m m' /\
    psdd_at val m' r s t' /\ tops_in val sums m' fl /\ flag_of (m_heap m') r = Some fl /\ In r (m_live m') /\
    relab f (m_heap m) root t' /\
    (forall i nd, reach (m_heap m) root i -> nth_error (m_heap m) i = Some nd -> exists ns, node_counts val (m_heap m) root recs i nd ns /\ f i = freqs (val alpha) ns) /\
    (forall x, base t' x = base t x) /\ nonneg t' /\ normalized t' /\ (deterministic t -> deterministic t') /\
    (forall i, dc' i = dc i) /\
    (forall i, reach (m_heap m) root i -> ud' i = None) /\ (forall i, ~ reach (m_heap m) root i -> ud' i = ud i).
Proof.
  intros A TI HX HD A0 HA. destruct (psdd_at_facts val m root s t A) as (HO & _ & _ & L & SO). pose proof A as A1. destruct A as (W & HR & p & V & S).
  assert (InvT val sums fl m) as I by (split; auto).
  destruct (count_passes val m root s t L dc recs ex A1 SO HX HD) as (dc1 & E1 & Q1 & Q2). set (h := m_heap m) in *.
  assert (topo h L) as TP. { split; [apply SO|]. split; [apply SO|]. intros i Hi. apply (ser_lt _ h HO root L SO i Hi). }
  assert (forall i nd, In i L -> nth_error h i = Some nd -> match n_body nd with BLit _ => True | _ => 0 < rsum (fun k => rn k + val alpha) (dc1 i) end) as HC.
  { intros i nd Hi En. apply (HA i nd (dc1 i)); auto. apply (so_in _ _ _ SO); auto. }
  destruct (learn_pass_sums val HP h fl L ud m dc1 alpha HO TP I A0) as (ud1 & m' & E2 & I' & X & IM & UD).
  { intros i nd Hi En. split; [eapply node_counts_length; eauto|apply HC; auto]. }
  assert (In root L) as HrL by (apply (so_in _ _ _ SO); constructor).
  destruct (IM root HrL) as (r & p' & t' & U & V' & [B1 B2] & RL & FL & LV). assert (p' = p) as -> by congruence.
  exists r, (clear_ud L ud1), (reset_counts L dc1), m', t', (fun i => freqs (val alpha) (dc1 i)).
  split. { unfold LearnPsddParameters. rewrite (so_eq _ _ _ SO). cbn [bind]. rewrite E1. cbn [bind]. rewrite E2. cbn [bind]. rewrite U. reflexivity. }
  split; auto. split. { split; [apply I'|]. split; auto. exists p. rewrite (me_vt _ _ _ X). auto. }
  split; [apply I'|]. split; auto. split; auto. split; auto. split. { intros i nd Hi En. exists (dc1 i). split; auto. apply Q2; auto. apply (so_in _ _ _ SO); auto. }
  destruct (relab_facts val (fun i => freqs (val alpha) (dc1 i)) h t root t' HR RL) as (C1 & C2 & _).
  destruct (relab_sums (fun i => freqs (val alpha) (dc1 i)) h t' root RL) as [C3 C4].
  { intros j nd Rj Ej. pose proof (HC j nd ltac:(apply (so_in _ _ _ SO); auto) Ej) as K. destruct (n_body nd); auto; apply freqs_wdist; auto. }
  split; auto. split; auto. split; auto. split; auto. split; [|split].
  - intros i. rewrite reset_spec. destruct (memb i L) eqn:Em.
    + apply memb_In in Em. destruct (nth_error h i) as [nd|] eqn:En.
      * rewrite (HD i nd) by (auto; apply (so_in _ _ _ SO); auto). rewrite <- (node_counts_length _ _ _ _ _ _ _ (Q2 i nd Em En)).
        clear. induction (dc1 i); simpl; congruence.
      * apply (ser_lt _ h HO root L SO i) in Em. apply nth_error_None in En. lia.
    + apply Q1. apply memb_false. auto.
  - intros i Hi. rewrite clear_ud_spec. assert (memb i L = true) as -> by (apply memb_In; apply (so_in _ _ _ SO); auto). auto.
  - intros i Hi. rewrite clear_ud_spec. rewrite <- (so_in _ _ _ SO) in Hi. assert (memb i L = false) as -> by (apply memb_false; auto). auto.
Qed.
Theorem learn_mle_zero (m : mgr P) fl root s t ud (dc : counts) (recs : list inst) (ex : examples) alpha : psdd_at val m root s t -> tops_in val sums m fl -> deterministic t ->
  (forall v, In v (leaves s) -> ex v = Some (map (fun x => x v) recs)) ->
  (forall i nd, reach (m_heap m) root i -> nth_error (m_heap m) i = Some nd -> dc i = repeat 0%N (arity nd)) ->
  val alpha = 0 -> reached (m_heap m) root recs 0 ->
  exists r ud' dc' m' t', LearnPsddParameters (m_heap m) ud dc root ex (length recs) alpha fl m = Ok (r, ud', dc', m') /\ psdd_at val m' r s t' /\ nonneg t' /\ normalized t' /\
    (forall x, In x recs -> base t x = true -> 0 < weight t' x) /\
    forall g t'', relab g (m_heap m) root t'' -> nonneg t'' -> normalized t'' -> likelihood recs t'' <= likelihood recs t'.
Proof.
  intros A TI D HX HD A0 HA. pose proof HA as HA'. rewrite <- A0 in HA'.
  destruct (learn_sums m fl root s t ud dc recs ex alpha A TI HX HD ltac:(lra) HA') as (r & ud' & dc' & m' & t' & f & E & X & A' & _ & _ & _ & RL & FQ & BE & NN & NO & _).
  destruct (psdd_at_facts val m root s t A) as (HO & _ & _ & L & SO). destruct (rep_choice val (m_vt m) (m_heap m) HO) as [T HT].
  assert (deterministic (T root)) as DT. { rewrite (Rep_fun val (m_heap m) _ _ _ (HT root (root_lt _ _ HO root L SO)) (proj1 (proj2 A))). exact D. }
  exists r, ud', dc', m', t'. do 4 (split; auto). rewrite A0 in FQ. split.
  - intros x Hx B. pose proof (learned_used val (m_vt m) (m_heap m) HO T HT root L SO recs f FQ HA) as U.
    refine (used_weight val (m_vt m) (m_heap m) HO T HT root L SO DT recs f t' x RL U Hx _). rewrite BE. exact B.
  - exact (zero_mle val (m_vt m) (m_heap m) HO T HT root L SO DT recs f t' RL FQ HA).
Qed.
End Full.
