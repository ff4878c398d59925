(** Expressions of products and conditioning (C69). *)
From Coq Require Import Reals Lra Sorted.
From Verif Require Import Base Param ParamProofs Vtree VtreeProofs Spec SpecProofs TreeProofs Heap Manager HeapProofs SerProofs
  RepProofs OrderProofs CanonProofs LoadProofs MulProofs ReplayProofs Query QueryProofs SampleProofs ProductTrees ProductNodes.
Local Open Scope R_scope.

(** A client of the library that multiplies several nodes, in any order and bracketing: the constants are multiplied, and a
    product that is zero ends the computation.  (pgm_compiler.cpp 235-275 and psdd_inference_main.cpp 80-90 are such clients.) *)
Inductive mexpr := MNode (i : nat) | MMul (a b : mexpr).
Fixpoint factors (e : mexpr) : list nat := match e with MNode i => [i] | MMul a b => factors a ++ factors b end.
Fixpoint mrun {P : pops} (fl : N) (e : mexpr) (m : mgr P) : res ((option nat * P) * mgr P) :=
  match e with
  | MNode i => Ok ((Some i, pone), m)
  | MMul a b =>
      do ra <- mrun fl a m ;;
      match fst (fst ra) with
      | None => Ok ((None, pzero), snd ra)
      | Some i =>
          do rb <- mrun fl b (snd ra) ;;
          match fst (fst rb) with
          | None => Ok ((None, pzero), snd rb)
          | Some j =>
              do r <- Multiply (snd rb) i j fl ;;
              Ok ((fst (fst r), pmul (snd (fst r)) (pmul (snd (fst ra)) (snd (fst rb)))), snd r)
          end
      end
  end.

Section Prod.
Context {P : pops} (val : P -> R) (HP : pexact P val).
Notation mgr := (mgr P). Notation node_at := (node_at val). Notation Inv := (Inv val).

(** ** Multiply, with what lies below the result *)
Section Flag.
Variable fl0 : N.
Let Good (fl : N) (m : mgr) : Prop := fl = fl0 /\ Inv fl m.
Let Out (m : mgr) (i : nat) (p : path) (t : ptree) : Prop := node_at m i p t /\ kept fl0 m i.
Lemma kept_node (m : mgr) i p t : node_at m i p t -> (forall es, t <> TDec es) -> In i (m_live m) -> flag_of (m_heap m) i = Some fl0 -> kept fl0 m i.
Proof.
  intros [_ R] NT L F. unfold flag_of in F.
  destruct t as [z|v a b|es]; [apply Rep_lit_inv in R as (nd & E & B)|apply Rep_top_inv in R as (nd & pt & pf & E & B & _)|exfalso; eapply NT; eauto];
    rewrite E in F; simpl in F; injection F as F; (eapply kept_leaf; eauto; intros; congruence).
Qed.
Lemma g_lit fl (m : mgr) l p : Good fl m -> subtree (m_vt m) p = Some (Leaf (lit_var l)) ->
  exists i m', GetPsddLiteralNode m l fl = Ok (i, m') /\ Good fl m' /\ mext fl m m' /\ In i (m_live m') /\ Out m' i p (TLit l) /\ flag_of (m_heap m') i = Some fl.
Proof.
  intros [-> I] S. destruct (literal_spec val HP fl0 m l p I S) as (i & m' & E & I' & X & L & A & F). exists i, m'. split; auto. split; [split; auto|]. split; auto. split; auto.
  split; auto. split; auto. eapply kept_node; eauto. discriminate.
Qed.
Lemma g_top fl (m : mgr) v pt pf p : Good fl m -> subtree (m_vt m) p = Some (Leaf v) -> val pt + val pf = 1 -> 0 < val pt -> 0 < val pf ->
  exists i m' nd pt' pf', GetPsddTopNode m v fl pt pf = Ok (i, m') /\ Good fl m' /\ mext fl m m' /\ In i (m_live m') /\
    Out m' i p (TTop v (val pt) (val pf)) /\ flag_of (m_heap m') i = Some fl /\
    nth_error (m_heap m') i = Some nd /\ n_body nd = BTop v pt' pf' /\ peq pt' pzero = false /\ peq pf' pzero = false.
Proof.
  intros [-> I] S N1 N2 N3. destruct (exact_top val HP fl0 m v pt pf p I S N1 N2 N3) as (i & m' & nd & pt' & pf' & E & I' & X & L & A & F & R).
  exists i, m', nd, pt', pf'. split; auto. split; [split; auto|]. split; auto. split; auto. split; auto. split; auto. eapply kept_node; eauto. discriminate.
Qed.
Lemma g_dec fl (m : mgr) p l r es tes : Good fl m -> subtree (m_vt m) p = Some (VNode l r) -> es <> [] -> Forall2 (elem_out val Out m p) es tes ->
  exists i m' tes', GetConformedPsddDecisionNode m (map e_prime es) (map e_sub es) (map e_param es) fl = Ok (i, m') /\
    Good fl m' /\ mext fl m m' /\ In i (m_live m') /\ Permutation tes tes' /\ Out m' i p (TDec tes') /\ flag_of (m_heap m') i = Some fl.
Proof.
  intros [-> I] S NE F.
  assert (Forall2 (elem_at val m p) es tes) as F0.
  { eapply Forall2_impl_in; [|exact F]. intros e te _ _ ((A & _) & (B & _) & C). split; [|split]; auto. }
  destruct (exact_dec val HP fl0 m p l r es tes I S NE F0) as (i & m' & tes' & E & I' & X & L & PM & A & FL).
  exists i, m', tes'. split; auto. split; [split; auto|]. split; auto. split; auto. split; auto. split; auto. split; auto.
  assert (direct m p es) as D.
  { apply Forall_forall. intros e He. destruct (Forall2_in_l _ _ _ _ F0 He) as (te & _ & [V1 _] & [V2 _] & _). auto. }
  rewrite (conformed_direct m p l r es fl0 S NE D) in E. injection E as E.
  assert (node_ok (m_vt m) (m_heap m) (length (m_heap m)) (MkN p fl0 (BDec (sort_elems es)))) as NO.
  { split; [|split; [eauto|]].
    - intros Z. apply NE. pose proof (sort_elems_perm es) as PS. rewrite Z in PS. apply Permutation_nil in PS. auto.
    - apply Forall_forall. intros e He. apply (Permutation_in _ (sort_elems_perm es)) in He. pose proof (proj1 (Forall_forall _ _) D e He) as [V1 V2]. simpl.
      split; [eapply vt_of_lt; eauto|]. split; [eapply vt_of_lt; eauto|]. auto. }
  destruct (intern_spec val HP fl0 m (MkN p fl0 (BDec (sort_elems es))) i m' I eq_refl Logic.I NO E) as (_ & _ & _ & nd & E1 & V & Fn & B). simpl in B.
  destruct (n_body nd) as [|?|es'] eqn:Eb; try contradiction.
  eapply kept_dec; eauto.
  - pose proof (sort_sorted es) as SO. clear - B SO. induction B as [|a b l l' (Q & _) B IH]; [constructor|]. inversion SO as [|? ? S1 S2]; subst.
    constructor; auto. clear - B S2 Q. induction B as [|c d l l' (Q' & _) B IH]; [constructor|]. inversion S2; subst. constructor; auto. unfold ple in *. congruence.
  - intros e He. destruct (Forall2_in_r _ _ _ _ B He) as (e0 & He0 & (Q1 & _)). rewrite <- Q1. apply (Permutation_in _ (sort_elems_perm es)) in He0.
    destruct (Forall2_in_l _ _ _ _ F He0) as (te & _ & (_ & K) & _ & _). eapply kept_mext; eauto.
  - intros e He. destruct (Forall2_in_r _ _ _ _ B He) as (e0 & He0 & (_ & Q1 & _)). rewrite <- Q1. apply (Permutation_in _ (sort_elems_perm es)) in He0.
    destruct (Forall2_in_l _ _ _ _ F He0) as (te & _ & _ & (_ & K) & _). eapply kept_mext; eauto.
Qed.
Lemma multiply_kept (m : mgr) a b p ta tb : Inv fl0 m -> node_at m a p ta -> node_at m b p tb -> safe ta tb ->
  exists r m', Multiply m a b fl0 = Ok (r, m') /\ Inv fl0 m' /\ mext fl0 m m' /\
    match fst r with
    | None => val (snd r) = 0 /\ forall x, base ta x && base tb x = false
    | Some i => exists t, node_at m' i p t /\ kept fl0 m' i /\ prod_of ta tb t (val (snd r))
    end.
Proof.
  intros I Na Nb SF.
  destruct (multiplyG_spec val HP Good Out (fun fl m I => proj1 (proj2 I))
    (fun fl m m' i p t X O => conj (node_at_ext val fl m m' i p t X (proj1 O)) (kept_mext fl0 fl m m' i X (proj2 O)))
    (fun m i p t W O => node_at_conforms val m i p t W (proj1 O)) g_lit g_top g_dec (peq_zero_pos val HP) fl0 m a b p ta tb (conj eq_refl I) Na Nb SF)
    as (r & m' & E & [_ I'] & X & M).
  exists r, m'. do 3 (split; auto). unfold mul_okG in M. destruct (fst r); auto. destruct M as (t & [N K] & PO & _). eauto.
Qed.
End Flag.

(** ** Expressions *)
Definition operand (m : mgr) (p : path) (i : nat) (t : ptree) : Prop := node_at m i p t /\ positive t /\ deterministic t.
Lemma operand_grow (m m' : mgr) p l ts : grow m m' -> Forall2 (operand m p) l ts -> Forall2 (operand m' p) l ts.
Proof. intros G. induction 1 as [|i t l ts (A & B & C) F IH]; constructor; auto. split; auto. eapply node_at_grow; eauto. Qed.
Lemma base_weight_zero t x : positive t -> base t x = false <-> weight t x = 0.
Proof.
  intros Pt. split; [apply weight_zero_off_base|]. intros Z. destruct (base t x) eqn:B; auto. apply (weight_pos_base t x Pt) in B. lra.
Qed.
Theorem mrun_spec fl p : forall e (m : mgr) l, Inv fl m -> Forall2 (operand m p) (factors e) l ->
  exists r z m', mrun fl e m = Ok ((r, z), m') /\ Inv fl m' /\ mext fl m m' /\
    match r with
    | None => val z = 0 /\ forall x, wprod l x = 0
    | Some i => 0 < val z /\ exists t, operand m' p i t /\ (forall x, weight t x * val z = wprod l x) /\ (forall x, base t x = bprod l x) /\ nstr l t /\
        match e with MNode _ => True | MMul _ _ => normalized t /\ kept fl m' i end
    end.
Proof.
  induction e as [i|a IHa b IHb]; intros m l I F; cbn [mrun factors] in *.
  - inversion F as [|? t ? l' O F']; subst. inversion F'; subst. exists (Some i), pone, m. split; auto. split; auto. split; [apply mext_refl|].
    rewrite (val_one HP). split; [lra|]. exists t. split; auto. split; [intros; simpl; ring|]. split; [intros x; simpl; rewrite andb_true_r; auto|].
    split; [apply nstr_single|auto].
  - apply Forall2_app_inv_l in F as (la & lb & Fa & Fb & ->).
    destruct (IHa m la I Fa) as (ra & za & m1 & E1 & I1 & X1 & M1). rewrite E1. cbn [bind fst snd].
    destruct ra as [i|].
    2:{ exists None, pzero, m1. do 3 (split; auto). split; [apply (val_zero HP)|]. intros x. rewrite wprod_app, (proj2 M1). ring. }
    pose proof (operand_grow _ _ _ _ _ (mext_grow _ _ _ X1) Fb) as Fb1.
    destruct (IHb m1 lb I1 Fb1) as (rb & zb & m2 & E2 & I2 & X2 & M2). rewrite E2. cbn [bind fst snd].
    pose proof (mext_trans _ _ _ _ X1 X2) as X12.
    destruct rb as [j|].
    2:{ exists None, pzero, m2. do 3 (split; auto). split; [apply (val_zero HP)|]. intros x. rewrite wprod_app, (proj2 M2). ring. }
    destruct M1 as (Za & ta & (Na & Pa & Da) & Wa & Ba & Sa & _). destruct M2 as (Zb & tb & (Nb & Pb & Db) & Wb & Bb & Sb & _).
    pose proof (node_at_ext val _ _ _ _ _ _ X2 Na) as Na2.
    destruct (multiply_kept fl m2 i j p ta tb I2 Na2 Nb (positive_safe _ Pa _ Pb)) as ([r z] & m3 & E3 & I3 & X3 & M3).
    unfold mres in *. rewrite E3. cbn [bind fst snd] in *. exists r, (pmul z (pmul za zb)), m3. split; auto. split; auto. split; [eapply mext_trans; eauto|].
    rewrite !(val_mul HP). destruct r as [k|].
    + destruct M3 as (t & Nt & Kt & PO). pose proof (prod_of_sem _ _ _ _ PO) as PS. pose proof PO as [Z W B Pt NO Dt ST].
      split; [apply Rmult_lt_0_compat; auto; apply Rmult_lt_0_compat; auto|]. exists t. split; [split; auto|]. split; [|split; [|split; [|split; auto]]].
      * intros x. rewrite wprod_app, <- Wa, <- Wb. transitivity ((weight t x * val z) * (val za * val zb)); [ring|]. rewrite W. ring.
      * intros x. rewrite bprod_app, <- Ba, <- Bb. auto.
      * destruct (node_at_conforms val m3 k p t (proj1 I3) Nt) as (s & Ss & C).
        destruct (node_at_conforms val m2 i p ta (proj1 I2) Na2) as (sa & Ssa & Ca). destruct (node_at_conforms val m2 j p tb (proj1 I2) Nb) as (sb & Ssb & Cb).
        rewrite (me_vt _ _ _ X3) in Ss. assert (sa = s) as -> by congruence. assert (sb = s) as -> by congruence.
        apply (nstr_app s (subtree_nodup _ (wf_leaves _ (proj1 I2)) _ _ Ss) la ta lb tb t); auto.
    + destruct M3 as [Z0 M3]. split; [rewrite Z0; ring|]. intros x. specialize (M3 x). rewrite wprod_app, <- Wa, <- Wb.
      apply andb_false_iff in M3 as [M3|M3]; rewrite (weight_zero_off_base _ _ M3); ring.
Qed.
Lemma const_sum s t z l : NoDup (leaves s) -> conforms s t -> normalized t -> (forall x, weight t x * z = wprod l x) -> forall x, z = sum_over (leaves s) (wprod l) x.
Proof.
  intros ND C N W x. rewrite <- (Rmult_1_r z), <- (normalized_total s t x ND C N), <- sum_over_scal. apply sum_over_ext'. intros y. rewrite <- W. ring.
Qed.

Lemma mrun_tidy fl p : forall e (m : mgr) l r m', tidy val fl m -> Forall2 (operand m p) (factors e) l -> mrun fl e m = Ok (r, m') -> tidy val fl m'.
Proof.
  induction e as [i|a IHa b IHb]; intros m l r m' T F E; cbn [mrun factors] in *.
  - injection E as _ <-. auto.
  - apply Forall2_app_inv_l in F as (la & lb & Fa & Fb & ->). apply tidy_inv in T as I; auto.
    destruct (mrun_spec fl p a m la I Fa) as (ra & za & m1 & E1 & I1 & X1 & M1). pose proof (IHa _ _ _ _ T Fa E1) as T1. rewrite E1 in E. cbn [bind fst snd] in E.
    destruct ra as [i|]; [|injection E as _ <-; auto].
    pose proof (operand_grow _ _ _ _ _ (mext_grow _ _ _ X1) Fb) as Fb1.
    destruct (mrun_spec fl p b m1 lb I1 Fb1) as (rb & zb & m2 & E2 & I2 & X2 & M2). pose proof (IHb _ _ _ _ T1 Fb1 E2) as T2. rewrite E2 in E. cbn [bind fst snd] in E.
    destruct rb as [j|]; [|injection E as _ <-; auto].
    destruct M1 as (_ & ta & (Na & Pa & _) & _). destruct M2 as (_ & tb & (Nb & Pb & _) & _).
    destruct (Multiply m2 i j fl) as [[r3 m3]| | |] eqn:E3; cbn [bind fst snd] in E; try discriminate. injection E as _ <-.
    apply (tidy_step val fl m2 (OMul i j fl) m3 T2).
    + intros _. exists p, ta, tb. split; [eapply node_at_ext; eauto|auto].
    + simpl. unfold mres in *. rewrite E3. reflexivity.
Qed.

(** ** What a client sees *)
Theorem product_value fl (m : mgr) p s e l : tidy val fl m -> subtree (m_vt m) p = Some s -> Forall2 (operand m p) (factors e) l ->
  exists r z m', mrun fl e m = Ok ((r, z), m') /\ mext fl m m' /\ tidy val fl m' /\
    (r = None <-> forall x, wprod l x = 0) /\
    match r with
    | None => val z = 0
    | Some i => exists t, node_at m' i p t /\ positive t /\ deterministic t /\ (forall x, weight t x * val z = wprod l x) /\
        ((exists a b, e = MMul a b) -> normalized t /\ forall x, val z = sum_over (leaves s) (wprod l) x)
    end.
Proof.
  intros T S F. apply tidy_inv in T as I; auto. destruct (mrun_spec fl p e m l I F) as (r & z & m' & E & I' & X & M).
  exists r, z, m'. split; auto. split; auto. split; [eapply mrun_tidy; eauto|]. destruct r as [i|].
  - destruct M as (Z & t & (Nt & Pt & Dt) & W & B & ST & R).
    destruct (node_at_conforms val m' i p t (proj1 I') Nt) as (s' & Ss & C). rewrite (me_vt _ _ _ X), S in Ss. injection Ss as <-.
    pose proof (subtree_nodup _ (wf_leaves _ (proj1 I)) _ _ S) as ND. split.
    + split; [discriminate|]. intros H. exfalso. destruct (base_sat s ND t C) as [x Hx]. apply (weight_pos_base t x Pt) in Hx. specialize (H x). rewrite <- W in H.
      apply Rmult_integral in H. lra.
    + exists t. do 4 (split; auto). intros (a & b & ->). destruct R as [R _]. split; auto. intros x. eapply const_sum; eauto.
  - split; [split; auto; intros _; apply M|apply M].
Qed.
Theorem product_order fl (m : mgr) p s e e' l r z m1 m2 : tidy val fl m -> subtree (m_vt m) p = Some s -> Forall2 (operand m p) (factors e) l ->
  Permutation (factors e) (factors e') -> mrun fl e m = Ok ((r, z), m1) -> tidy val fl m2 -> grow m1 m2 ->
  exists z' m3, mrun fl e' m2 = Ok ((r, z'), m3) /\ val z' = val z /\ mext fl m2 m3.
Proof.
  intros T S F PM E T2 G. apply tidy_inv in T as I; auto. apply tidy_inv in T2 as I2; auto.
  destruct (mrun_spec fl p e m l I F) as (r0 & z0 & m0 & E0 & I0 & X0 & M0). rewrite E in E0. injection E0 as <- <- <-.
  pose proof (grow_trans _ _ _ (mext_grow _ _ _ X0) G) as G2.
  destruct (Forall2_perm _ _ _ PM _ F) as (l' & PL & F').
  destruct (mrun_spec fl p e' m2 l' I2 (operand_grow _ _ _ _ _ G2 F')) as (r' & z' & m3 & E' & I3 & X3 & M').
  pose proof (grow_trans _ _ _ G (mext_grow _ _ _ X3)) as G3.
  assert (m_vt m2 = m_vt m) as EV by apply G2.
  pose proof (subtree_nodup _ (wf_leaves _ (proj1 I)) _ _ S) as ND.
  enough (r' = r /\ val z' = val z) as [-> EZ] by eauto.
  assert (forall k t, node_at m3 k p t -> positive t -> (forall c, ~ (0 < c /\ forall x, weight t x * c = 0))) as NZ.
  { intros k t Nk Pk c [Hc H]. destruct (node_at_conforms val m3 k p t (proj1 I3) Nk) as (s' & Ss & C). rewrite (me_vt _ _ _ X3), EV, S in Ss. injection Ss as <-.
    destruct (base_sat s ND t C) as [x Hx]. apply (weight_pos_base t x Pk) in Hx. specialize (H x). apply Rmult_integral in H. lra. }
  destruct r as [i|], r' as [j|].
  - destruct M0 as (Z & t & (Nt & Pt & Dt) & W & B & ST & R). destruct M' as (Z' & t' & (Nt' & Pt' & Dt') & W' & B' & ST' & R').
    destruct e as [i0|a b].
    { simpl in PM. apply Permutation_length_1_inv in PM. destruct e' as [j0|a' b'].
      - simpl in PM. injection PM as ->. simpl in E, E'. injection E as <- <- _. injection E' as <- <- _. auto.
      - exfalso. simpl in PM. assert (forall e0, factors e0 <> []) as NEm by (induction e0 as [|u IHu v IHv]; simpl; [discriminate|]; intros Q; apply app_eq_nil in Q; tauto).
        pose proof (NEm a'). pose proof (NEm b'). destruct (factors a') as [|? [|]], (factors b'); simpl in PM; congruence. }
    destruct e' as [j0|a' b'].
    { exfalso. apply Permutation_sym in PM. simpl in PM. apply Permutation_length_1_inv in PM.
      assert (forall e0, factors e0 <> []) as NEm by (induction e0 as [|u IHu v IHv]; simpl; [discriminate|]; intros Q; apply app_eq_nil in Q; tauto).
      pose proof (NEm a). pose proof (NEm b). destruct (factors a) as [|? [|]], (factors b); simpl in PM; congruence. }
    destruct R as [NO K], R' as [NO' K']. pose proof (node_at_grow val _ _ _ _ _ G3 Nt) as Nt3.
    destruct (node_at_conforms val m3 i p t (proj1 I3) Nt3) as (s1 & Ss1 & C1). rewrite (me_vt _ _ _ X3), EV, S in Ss1. injection Ss1 as <-.
    destruct (node_at_conforms val m3 j p t' (proj1 I3) Nt') as (s2 & Ss2 & C2). rewrite (me_vt _ _ _ X3), EV, S in Ss2. injection Ss2 as <-.
    split.
    + f_equal. symmetry. apply (same_node val HP fl m3 s (proj1 I3) p i j t t' l); auto.
      * rewrite (me_vt _ _ _ X3), EV. auto.
      * eapply kept_grow; eauto.
      * split; eauto.
      * split; [exists (val z'); split; auto; intros x; rewrite W'; apply wprod_perm, Permutation_sym; auto|intros x; rewrite B'; apply bprod_perm, Permutation_sym; auto].
      * apply (nstr_perm s l' l t'); auto using Permutation_sym.
    + rewrite (const_sum s t' (val z') l' ND C2 NO' W' (fun _ => true)), (const_sum s t (val z) l ND C1 NO W (fun _ => true)).
      apply sum_over_ext'. intros x. apply wprod_perm, Permutation_sym; auto.
  - exfalso. destruct M0 as (Z & t & (Nt & Pt & _) & W & _). apply (NZ i t (node_at_grow val _ _ _ _ _ G3 Nt) Pt (val z)). split; auto.
    intros x. rewrite W, (wprod_perm _ _ _ PL). apply M'.
  - exfalso. destruct M' as (Z & t & (Nt & Pt & _) & W & _). apply (NZ j t Nt Pt (val z')). split; auto.
    intros x. rewrite W, <- (wprod_perm _ _ _ PL). apply M0.
  - split; auto. destruct M0 as [-> _], M' as [-> _]. auto.
Qed.

(** ** Conditioning: the second factor says only which instantiations are possible *)
Theorem conditioning fl (m : mgr) a b p s ta tb (ev : inst -> bool) c : tidy val fl m -> subtree (m_vt m) p = Some s ->
  node_at m a p ta -> node_at m b p tb -> positive ta -> positive tb -> normalized ta ->
  (forall x, weight tb x = if ev x then c else 0) ->
  exists r z m', Multiply m a b fl = Ok ((r, z), m') /\ mext fl m m' /\
    (forall x0, val z = c * sum_over (leaves s) (fun x => if ev x then weight ta x else 0) x0) /\
    match r with
    | None => forall x, ev x = true -> weight ta x = 0
    | Some i => forall mask y x0, exists v, Evaluate (m_heap m') mask y i = Ok v /\
        val v * sum_over (leaves s) (fun x => if ev x then weight ta x else 0) x0 =
        sum_over (leaves s) (fun x => if agreesb (leaves s) mask y x && ev x then weight ta x else 0) x0
    end.
Proof.
  intros T S Na Nb Pa Pb NO Wb. apply tidy_inv in T as I; auto. pose proof (subtree_nodup _ (wf_leaves _ (proj1 I)) _ _ S) as ND.
  destruct (multiply_spec val HP fl m a b p ta tb I Na Nb Pa Pb) as ([r z] & m' & E & I' & X & M). unfold mul_ok in M. simpl in M.
  exists r, z, m'. split; auto. split; auto. destruct r as [i|].
  - destruct M as (t & Nt & PO & _). destruct (node_at_conforms val m' i p t (proj1 I') Nt) as (s' & Ss & C). rewrite (me_vt _ _ _ X), S in Ss. injection Ss as <-.
    assert (forall x, weight t x * val z = c * (if ev x then weight ta x else 0)) as W.
    { intros x. rewrite (po_weight _ _ _ _ PO), Wb. destruct (ev x); ring. }
    assert (forall x0, val z = c * sum_over (leaves s) (fun x => if ev x then weight ta x else 0) x0) as Z.
    { intros x0. rewrite <- sum_over_scal, <- (Rmult_1_r (val z)), <- (normalized_total s t x0 ND C (po_norm _ _ _ _ PO)), <- sum_over_scal. apply sum_over_ext'. intros x. rewrite <- W. ring. }
    split; auto. intros mask y x0.
    destruct (evaluate_full val HP m' i s t mask y) as (v & Ev & _ & V & _).
    { split; [apply I'|]. split; [apply Nt|]. exists p. split; [apply Nt|]. rewrite (me_vt _ _ _ X). auto. }
    exists v. split; auto. rewrite (V (normalized_tops_one t (po_norm _ _ _ _ PO)) x0).
    pose proof (po_z _ _ _ _ PO) as Zp. assert (c <> 0) as NC by (intros ->; rewrite (Z x0) in Zp; lra).
    apply (Rmult_eq_reg_l c); [|auto]. transitivity (val z * sum_over (leaves s) (fun x => if agreesb (leaves s) mask y x then weight t x else 0) x0).
    { rewrite (Z x0). ring. }
    rewrite <- !sum_over_scal. apply sum_over_ext'. intros x. destruct (agreesb (leaves s) mask y x); simpl; [|ring]. rewrite <- W. ring.
  - destruct M as [Z M].
    assert (forall x, c * (if ev x then weight ta x else 0) = 0) as W.
    { intros x. specialize (M x). replace (c * (if ev x then weight ta x else 0)) with (weight ta x * weight tb x) by (rewrite Wb; destruct (ev x); ring).
      apply andb_false_iff in M as [M|M]; rewrite (weight_zero_off_base _ _ M); ring. }
    split.
    + intros x0. rewrite Z, <- sum_over_scal, (sum_over_ext' _ _ (fun _ => 0)); [rewrite sum_over_zero; auto|auto].
    + intros x Ex. specialize (W x). rewrite Ex in W. apply Rmult_integral in W as [->|W]; auto. exfalso.
      destruct (node_at_conforms val m b p tb (proj1 I) Nb) as (s' & Ss & C). rewrite S in Ss. injection Ss as <-.
      destruct (base_sat s ND tb C) as [y Hy]. apply (weight_pos_base tb y Pb) in Hy. rewrite Wb in Hy. destruct (ev y); lra.
Qed.
End Prod.
