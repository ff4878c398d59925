(** GetMPESolution with rounded arithmetic (C60). *)
From Coq Require Import Reals Lra Psatz.
From Verif Require Import Base Param ParamProofs Vtree VtreeProofs Spec SpecProofs Heap Manager HeapProofs SerProofs RepProofs LoadProofs
  MulProofs TreeProofs Query QueryProofs MpeProofs SampleProofs ApproxMpe Round RoundProofs RoundEval.
Local Open Scope R_scope.

Lemma weight_range vt t x : conforms vt t -> nonneg t -> range (mag t) (weight t x).
Proof. intros C N. rewrite <- (tev_full vt t (fun _ => true) x C) by auto. apply tev_range; auto. Qed.

Section RoundMpe.
Context {P : pops} (val : P -> R) (B e d : R) (HP : pround P val B e d).
Notation heap := (heap P). Notation mgr := (mgr P). Notation node := (node P).
Notation Rep := (Rep val).
Context (vroot : vtree) (h : heap) (HO : heap_ok vroot h) (root : nat) (L : list nat) (SO : ser_of h root L).
Notation cv := (cv val).
Definition prod (c : nat -> option (P * nat)) (f : elem P) : P :=
  match c (e_prime f), c (e_sub f) with Some a, Some b => pmul (pmul (fst a) (fst b)) (e_param f) | _, _ => pzero end.
(** what the first pass leaves at a node *)
Definition rlocal (c : nat -> option (P * nat)) (i : nat) : Prop :=
  c i <> None /\ match option_map (@n_body P) (nth_error h i) with
  | None => False
  | Some (BLit _) => cv c i = 1
  | Some (BTop _ pt pf) => cv c i = val (if Nat.eqb (ch c i) 0 then pf else pt) /\
      (range B (val pt) -> range B (val pf) -> val pt <= exp d * cv c i /\ val pf <= exp d * cv c i)
  | Some (BDec es) => exists f, nth_error es (ch c i) = Some f /\ ((forall f', In f' es -> range B (val (prod c f'))) ->
      cv c i = val (prod c f) /\ forall f', In f' es -> val (prod c f') <= exp d * cv c i)
  end.
Lemma rexp_ge1 : 1 <= exp d.
Proof. pose proof (exp_ineq1_le d). pose proof (rd_d HP). lra. Qed.
Lemma rbest_spec c es : es <> [] -> (forall f, In f es -> c (e_prime f) <> None /\ c (e_sub f) <> None) ->
  exists v k f, mpe_best c es = Ok (v, k) /\ nth_error es k = Some f /\ ((forall f', In f' es -> range B (val (prod c f'))) ->
    val v = val (prod c f) /\ forall f', In f' es -> val (prod c f') <= exp d * val v).
Proof.
  intros NE HC. unfold mpe_best. pose proof rexp_ge1 as E1.
  assert (forall rest pre best idx, es = pre ++ rest ->
    (best = pzero /\ idx = 0%nat \/ exists f, nth_error pre idx = Some f /\ best = prod c f) ->
    ((forall f', In f' es -> range B (val (prod c f'))) -> forall f, In f pre -> val (prod c f) <= exp d * val best) ->
    exists v k n, foldM (mpe_elem c) rest (best, idx, length pre) = Ok (v, k, n) /\ (v = pzero /\ k = 0%nat \/ exists f, nth_error es k = Some f /\ v = prod c f) /\
      ((forall f', In f' es -> range B (val (prod c f'))) -> forall f, In f es -> val (prod c f) <= exp d * val v)) as K.
  { induction rest as [|f rest IH]; intros pre best idx EL BB M.
    - simpl. rewrite app_nil_r in EL. subst pre. eauto 10.
    - cbn [foldM]. assert (In f es) as If by (rewrite EL; apply in_app_iff; right; left; auto). destruct (HC f If) as [Ha Hb].
      unfold mpe_elem at 1. destruct (c (e_prime f)) as [[va ka]|] eqn:Ea; [|congruence]. destruct (c (e_sub f)) as [[vb kb]|] eqn:Eb; [|congruence].
      cbn [get bind fst]. set (v := pmul (pmul va vb) (e_param f)).
      assert (v = prod c f) as Ev. { unfold v, prod. rewrite Ea, Eb. reflexivity. }
      assert (es = (pre ++ [f]) ++ rest) as EL' by (rewrite <- app_assoc; auto).
      replace (S (length pre)) with (length (pre ++ [f])) by (rewrite app_length; simpl; lia).
      pose proof (rd_nonneg HP v) as V0. destruct (pgt v best) eqn:G; rewrite (rd_gt HP) in G.
      + apply (rd_lt HP) in G. apply (IH (pre ++ [f]) v (length pre) EL').
        * right. exists f. rewrite nth_error_app2, Nat.sub_diag by lia. auto.
        * intros RA f' Hf'. apply in_app_iff in Hf' as [Hf'|[<-|[]]]; [|rewrite <- Ev; nra]. specialize (M RA f' Hf'). nra.
      + apply (IH (pre ++ [f]) best idx EL').
        * destruct BB as [BB|(f0 & B1 & B2)]; [auto|right]. exists f0. split; auto. rewrite nth_error_app1; auto. apply nth_error_Some. congruence.
        * intros RA f' Hf'. apply in_app_iff in Hf' as [Hf'|[<-|[]]]; [auto|]. rewrite <- Ev. apply (rd_near HP); auto; [|rewrite Ev; auto].
          destruct BB as [[-> _]|(f0 & B1 & ->)]; [rewrite (rd_zero HP); apply range_0|]. apply RA. rewrite EL. apply in_app_iff. left. eapply nth_error_In; eauto. }
  destruct (K es [] pzero 0%nat eq_refl) as (v & k & n & E & BB & M); [auto|intros _ f []|]. cbn [length] in E. rewrite E. cbn [bind fst].
  destruct BB as [[-> ->]|(f & B1 & B2)]; [|exists v, k, f; subst v; auto]. destruct es as [|f es']; [congruence|]. exists pzero, 0%nat, f. split; auto. split; auto.
  intros RA. split; [|auto]. specialize (M RA f (or_introl eq_refl)). rewrite (rd_zero HP) in *. pose proof (rd_nonneg HP (prod c f)). lra.
Qed.
Lemma rlocal_ext c c' i : c' i = c i -> (forall nd es f, nth_error h i = Some nd -> n_body nd = BDec es -> In f es -> c' (e_prime f) = c (e_prime f) /\ c' (e_sub f) = c (e_sub f)) ->
  rlocal c i -> rlocal c' i.
Proof.
  unfold rlocal, ApproxMpe.cv, ch. intros E F [A G]. rewrite E. split; auto. destruct (nth_error h i) as [nd|] eqn:En; simpl in *; auto.
  destruct (n_body nd) as [l|w pt pf|es] eqn:Eb; auto. destruct G as (f & B1 & B2).
  assert (forall f', In f' es -> prod c' f' = prod c f') as X. { intros f' Hf'. destruct (F nd es f' eq_refl Eb Hf') as [X Y]. unfold prod. rewrite X, Y. reflexivity. }
  exists f. split; auto. intros RA. rewrite X by (eapply nth_error_In; eauto). destruct B2 as [B2 B3]. { intros f' Hf'. rewrite <- X; auto. }
  split; auto. intros f' Hf'. rewrite X by auto. auto.
Qed.
Lemma rphase1 ud : exists c, foldM (mpe_step h) (rev L) ud = Ok c /\ (forall i, In i L -> rlocal c i) /\ (forall i, ~ In i L -> c i = ud i).
Proof.
  apply (bottom_up _ (fun L2 c => (forall i, In i L2 -> rlocal c i) /\ (forall i, ~ In i L2 -> c i = ud i)) L ud).
  - intros L1 i L2 c EL [IH U].
    assert (i < length h)%nat as Hi by (eapply ser_lt; eauto; rewrite EL; apply in_app_iff; right; left; auto).
    assert (~ In i L2) as Ni. { pose proof (so_nodup _ _ _ SO) as ND. rewrite EL in ND. apply NoDup_remove_2 in ND. intros G. apply ND, in_app_iff. auto. }
    destruct (nth_error h i) as [nd|] eqn:En; [|apply nth_error_None in En; lia].
    assert (forall es f, n_body nd = BDec es -> In f es -> In (e_prime f) L2 /\ In (e_sub f) L2) as CH.
    { intros es f Eb Hf. exact (ser_elem h root L SO L1 i L2 nd es f EL En Eb Hf). }
    assert (exists v k, mpe_node c nd = Ok (v, k) /\ rlocal (set_ud c i (Some (v, k))) i) as (v & k & Er & Hr).
    { unfold mpe_node, rlocal, ApproxMpe.cv, ch. rewrite En. simpl. pose proof rexp_ge1 as E1. destruct (n_body nd) as [l|w pt pf|es] eqn:Eb.
      - exists pone, 0%nat. rewrite set_ud_same. split; auto. split; [congruence|]. apply (rd_one HP).
      - pose proof (rd_nonneg HP pt). pose proof (rd_nonneg HP pf). destruct (pgt pt pf) eqn:G; rewrite (rd_gt HP) in G.
        + apply (rd_lt HP) in G. exists pt, 1%nat. rewrite set_ud_same. split; auto. split; [congruence|]. simpl. split; auto. intros _ _. split; nra.
        + exists pf, 0%nat. rewrite set_ud_same. split; auto. split; [congruence|]. simpl. split; auto. intros R1 R2. split; [|nra]. apply (rd_near HP); auto.
      - destruct (rbest_spec c es) as (v & k & f & B1 & B2 & B3).
        + pose proof (HO _ _ En) as NO. unfold node_ok in NO. rewrite Eb in NO. apply NO.
        + intros f Hf. destruct (CH es f eq_refl Hf) as [I1 I2]. split; [apply (IH _ I1)|apply (IH _ I2)].
        + exists v, k. rewrite set_ud_same. split; auto. split; [congruence|]. 
          assert (forall f', In f' es -> prod (set_ud c i (Some (v, k))) f' = prod c f') as X.
          { intros f' Hf'. destruct (CH es f' eq_refl Hf') as [I1 I2]. unfold prod. rewrite !set_ud_other; auto; intros G; rewrite G in *; auto. }
          exists f. split; auto. intros RA. rewrite X by (eapply nth_error_In; eauto). destruct B3 as [B3 B4]. { intros f' Hf'. rewrite <- X; auto. }
          split; auto. intros f' Hf'. rewrite X; auto. }
    exists (set_ud c i (Some (v, k))). unfold mpe_step, node_of. rewrite En. cbn [get bind]. rewrite Er. cbn [bind]. split; auto. split.
    + intros j Hj. destruct (Nat.eq_dec j i) as [->|Nji]; auto. destruct Hj as [->|Hj]; [congruence|].
      apply (rlocal_ext c); [apply set_ud_other; auto| |auto]. intros nd' es f E1 E2 Hf.
      apply in_split in Hj as (L3 & L4 & ->).
      destruct (ser_elem h root L SO (L1 ++ i :: L3) j L4 nd' es f) as [I1 I2]; auto. { rewrite EL, <- app_assoc. reflexivity. }
      rewrite !set_ud_other; auto; intros G; apply Ni; rewrite G in *; apply in_app_iff; right; right; auto.
    + intros j Hj. rewrite set_ud_other; [|intros ->; apply Hj; left; auto]. apply U. intros G. apply Hj. right; auto.
  - split; [intros i []|auto].
Qed.
(** what the reported value and bits mean *)
Lemma rchoice c : (forall i, In i L -> rlocal c i) -> forall s, NoDup (leaves s) -> forall i t, In i L -> Rep h i t -> conforms s t -> deterministic t ->
  mag t + INR (2 * vsize s) * e <= B ->
  exists b, cho h c s i b /\ (forall v, b v = true -> In v (leaves s)) /\ base t b = true /\ close (INR (2 * vsize s) * e) (weight t b) (cv c i) /\
    forall y, weight t y <= exp (INR (2 * vsize s) * e + INR (vsize s) * d) * cv c i.
Proof.
  intros HL. pose proof (rd_d HP) as D0. pose proof (rd_e HP) as E0. pose proof (rd_nonneg HP) as V0. pose proof (ke_nonneg val B e d HP) as K0.
  induction s as [w|sa IHa sb IHb]; intros ND i t Hi HR C D HB; destruct (HL i Hi) as [Nc LC]; pose proof (Rep_nonneg_r val B e d HP h t i HR) as NN;
  inversion HR as [j nd l E1 E2|j nd u pt pf E1 E2|j nd es tes E1 E2 E3]; subst t; simpl in C; try contradiction; rewrite E1 in LC; simpl in LC; rewrite E2 in LC.
  - exists (fun v => N.eqb v (Z.abs_N l) && Z.ltb 0 l). split; [eapply cho_lit; eauto|].
    split. { intros v Hv. apply andb_true_iff in Hv as [Hv _]. apply N.eqb_eq in Hv. left. congruence. }
    cbn [base weight]. unfold lit_sat. rewrite N.eqb_refl. simpl. rewrite eqb_reflx. split; auto. rewrite LC. split; [apply close_refl; [apply (K0 2%nat)|lra]|].
    intros y. assert (1 <= exp ((1 + 1) * e + 1 * d)) by (pose proof (exp_ineq1_le ((1 + 1) * e + 1 * d)); lra). destruct (Bool.eqb (y (Z.abs_N l)) (0 <? l)%Z); lra.
  - destruct LC as (V & M). unfold nonneg in NN. simpl in NN. destruct NN as [[N1 N2] _]. cbn [mag] in HB.
    assert (range B (val pt)) as R1. { eapply range_weaken; [|apply range_lg; auto]. pose proof (Rmax_l (lg (val pt)) (lg (val pf))). pose proof (K0 (2 * vsize (Leaf w))%nat). lra. }
    assert (range B (val pf)) as R2. { eapply range_weaken; [|apply range_lg; auto]. pose proof (Rmax_r (lg (val pt)) (lg (val pf))). pose proof (K0 (2 * vsize (Leaf w))%nat). lra. }
    destruct (M R1 R2) as [M1 M2]. exists (fun v => N.eqb v u && negb (Nat.eqb (ch c i) 0)). split; [eapply cho_top; eauto|].
    split. { intros v Hv. apply andb_true_iff in Hv as [Hv _]. apply N.eqb_eq in Hv. left. congruence. }
    cbn [base weight]. split; auto. rewrite N.eqb_refl. split.
    + rewrite V. destruct (Nat.eqb (ch c i) 0); (apply close_refl; [apply K0|auto]).
    + assert (0 <= cv c i) as C0 by (rewrite V; auto). assert (exp d <= exp (INR (2 * vsize (Leaf w)) * e + INR (vsize (Leaf w)) * d)) as MX.
      { apply exp_mono. simpl. lra. }
      intros y. destruct (y u); eapply Rle_trans; eauto; apply Rmult_le_compat_r; auto.
  - destruct LC as (f & Ef & LC). destruct C as [NE C]. rewrite Forall_forall in C. apply all_nodes_dec in D as [DD D]. rewrite Forall_forall in D.
    simpl in ND. destruct (leaves_disjoint sa sb ND) as (NDa & NDb & DJ).
    assert (INR (2 * vsize (VNode sa sb)) * e = INR (2 * vsize sa) * e + INR (2 * vsize sb) * e + INR 2 * e) as VS.
    { replace (2 * vsize (VNode sa sb))%nat with (2 * vsize sa + 2 * vsize sb + 2)%nat by (simpl; lia). rewrite !plus_INR. ring. }
    assert (INR (vsize (VNode sa sb)) * d = INR (vsize sa) * d + INR (vsize sb) * d + d) as VD.
    { cbn [vsize]. rewrite !plus_INR. change (INR 1) with 1. ring. }
    pose proof (K0 (2 * vsize sa)%nat) as Ka. pose proof (K0 (2 * vsize sb)%nat) as Kb. pose proof (K0 2%nat) as K2.
    assert (forall g, In g es -> In (e_prime g) L /\ In (e_sub g) L) as CL.
    { intros g Hg. split; apply (so_in _ _ _ SO); (eapply reach_snoc; [apply (so_in _ _ _ SO); exact Hi|exact E1|apply in_children; eauto 10]). }
    (* every element *)
    assert (forall g tg, In g es -> In tg tes -> ElemRep val h g tg ->
      exists b1 b2, cho h c sa (e_prime g) b1 /\ cho h c sb (e_sub g) b2 /\ (forall v, b1 v = true -> In v (leaves sa)) /\ (forall v, b2 v = true -> In v (leaves sb)) /\
        base (tp tg) b1 = true /\ base (ts tg) b2 = true /\
        close (INR (2 * vsize (VNode sa sb)) * e) (weight (tp tg) b1 * weight (ts tg) b2 * tw tg) (val (prod c g)) /\ range B (val (prod c g)) /\
        forall y, weight (tp tg) y * weight (ts tg) y * tw tg <= exp (INR (2 * vsize (VNode sa sb)) * e + INR (vsize sa) * d + INR (vsize sb) * d) * val (prod c g)) as EL.
    { intros g tg Ig Itg (A & A2 & W). destruct (C tg Itg) as [C1 C2]. destruct (D tg Itg) as [D1 D2]. destruct (CL g Ig) as [L1 L2].
      destruct (nonneg_elem tes tg NN Itg) as (N1 & N2 & N3). pose proof (mag_elem tes tg Itg) as Hm. pose proof (ln_len tes) as Hl.
      pose proof (mag_nonneg (tp tg)) as G1. pose proof (mag_nonneg (ts tg)) as G2. pose proof (lg_nonneg (tw tg)) as G3.
      destruct (IHa NDa _ _ L1 A C1 D1 ltac:(lra)) as (b1 & K1 & In1 & Ba1 & W1 & O1).
      destruct (IHb NDb _ _ L2 A2 C2 D2 ltac:(lra)) as (b2 & K3 & In2 & Ba2 & W2 & O2).
      exists b1, b2. split; auto. split; auto. split; auto. split; auto. split; auto. split; auto.
      pose proof (weight_range sa _ b1 C1 N1) as R1. pose proof (weight_range sb _ b2 C2 N2) as R2. pose proof (range_lg _ N3) as R3.
      destruct (HL _ L1) as [Nc1 _]. destruct (HL _ L2) as [Nc2 _]. unfold prod. unfold ApproxMpe.cv in W1, W2, O1, O2.
      destruct (c (e_prime g)) as [[va ka]|] eqn:Ea; [|congruence]. destruct (c (e_sub g)) as [[vb kb]|] eqn:Eb; [|congruence]. cbn [fst].
      assert (close (INR (2 * vsize (VNode sa sb)) * e) (weight (tp tg) b1 * weight (ts tg) b2 * tw tg) (val (pmul (pmul va vb) (e_param g)))) as CP.
      { replace (2 * vsize (VNode sa sb))%nat with (2 * vsize sa + 2 * vsize sb + 2)%nat by (simpl; lia).
        rewrite W. apply (term_close val B e d HP _ _ _ _ _ _ _ (mag (tp tg)) (mag (ts tg))); auto. rewrite !plus_INR, !Rmult_plus_distr_r. rewrite <- W. lra. }
      split; auto. split.
      { eapply range_weaken; [|eapply range_close; [|exact CP|apply V0]]; [|apply range_mul; [apply range_mul; eauto|eauto]]. lra. }
      intros y. specialize (O1 y). specialize (O2 y).
      assert (range (mag (tp tg) + INR (2 * vsize sa) * e) (val va)) as Ra by (eapply range_close; eauto).
      assert (range (mag (ts tg) + INR (2 * vsize sb) * e) (val vb)) as Rb by (eapply range_close; eauto).
      assert (close (INR 2 * e) (val va * val vb * val (e_param g)) (val (pmul (pmul va vb) (e_param g)))) as [_ CQ].
      { apply (term_close val B e d HP va vb (e_param g) (val va) (val vb) 0 0 _ _) with (3 := Ra) (4 := Rb); try lra.
        - change (INR 0) with 0. rewrite Rmult_0_l. apply close_refl; [lra|auto].
        - change (INR 0) with 0. rewrite Rmult_0_l. apply close_refl; [lra|auto].
        - rewrite <- W. simpl plus. lra. }
      pose proof (weight_nonneg _ y N1) as Y1. pose proof (weight_nonneg _ y N2) as Y2.
      replace (INR (2 * vsize (VNode sa sb)) * e + INR (vsize sa) * d + INR (vsize sb) * d) with ((INR (2 * vsize sa) * e + INR (vsize sa) * d) + (INR (2 * vsize sb) * e + INR (vsize sb) * d) + INR 2 * e) by lra.
      rewrite !(exp_plus _ (INR 2 * e)), (exp_plus (INR (2 * vsize sa) * e + _) (_ + _)).
      set (ea := exp (INR (2 * vsize sa) * e + INR (vsize sa) * d)) in *. set (eb := exp (INR (2 * vsize sb) * e + INR (vsize sb) * d)) in *.
      assert (0 < ea) by apply exp_pos. assert (0 < eb) by apply exp_pos. rewrite W in *.
      apply Rle_trans with (ea * val va * (eb * val vb) * val (e_param g)).
      { apply Rmult_le_compat_r; auto. apply Rmult_le_compat; auto. }
      replace (ea * val va * (eb * val vb) * val (e_param g)) with (ea * eb * (val va * val vb * val (e_param g))) by ring.
      rewrite !Rmult_assoc. apply Rmult_le_compat_l; [lra|]. apply Rmult_le_compat_l; [lra|]. rewrite <- !Rmult_assoc. auto. }
    assert (forall g, In g es -> exists tg, In tg tes /\ ElemRep val h g tg) as ET.
    { clear - E3. induction E3 as [|g tg es tes HH F IH]; intros k []; [subst; exists tg; split; [left; auto|exact HH]|].
      destruct (IH _ H) as (t' & H1 & H2). exists t'. split; [right; auto|auto]. }
    assert (forall tg, In tg tes -> exists g, In g es /\ ElemRep val h g tg) as TE.
    { clear - E3. induction E3 as [|g tg es tes HH F IH]; intros k []; [subst; exists g; split; [left; auto|exact HH]|].
      destruct (IH _ H) as (t' & H1 & H2). exists t'. split; [right; auto|auto]. }
    destruct LC as [V M]. { intros g Ig. destruct (ET g Ig) as (tg & Itg & RG). destruct (EL g tg Ig Itg RG) as (_ & _ & _ & _ & _ & _ & _ & _ & _ & R & _). auto. }
    pose proof (nth_error_In _ _ Ef) as If. destruct (ET f If) as (te & Ite & RF). destruct (EL f te If Ite RF) as (b1 & b2 & K1 & K3 & In1 & In2 & Ba1 & Ba2 & CP & _).
    destruct (C te Ite) as [C1 C2].
    exists (fun v => b1 v || b2 v). split; [eapply cho_dec; eauto|].
    split. { intros v Hv. simpl. apply in_app_iff. apply orb_true_iff in Hv as [Hv|Hv]; auto. }
    assert (agree_on (leaves sa) (fun v => b1 v || b2 v) b1) as A1.
    { intros v Hv. destruct (b2 v) eqn:G; [|apply orb_false_r]. exfalso. eapply DJ; eauto. }
    assert (agree_on (leaves sb) (fun v => b1 v || b2 v) b2) as A2.
    { intros v Hv. destruct (b1 v) eqn:G; [|reflexivity]. exfalso. eapply DJ; eauto. }
    set (x := fun v => b1 v || b2 v) in *.
    assert (base (tp te) x = true) as BP by (rewrite (base_depends sa _ C1 _ _ A1); auto).
    assert (base (ts te) x = true) as BS by (rewrite (base_depends sb _ C2 _ _ A2); auto).
    assert (weight (TDec tes) x = weight (tp te) b1 * weight (ts te) b2 * tw te) as WX.
    { rewrite weight_dec, (weight_one_elem x tes te DD Ite BP), (weight_depends sa _ C1 _ _ A1), (weight_depends sb _ C2 _ _ A2). reflexivity. }
    assert (0 <= cv c i) as CV0 by (rewrite V; auto).
    split; [rewrite base_dec; apply existsb_exists; exists te; rewrite BP, BS; auto|]. split; [rewrite WX, V; auto|].
    intros y. rewrite weight_dec. apply weight_le_elems; auto.
    { apply Rmult_le_pos; auto. left. apply exp_pos. }
    intros tg Itg. destruct (TE tg Itg) as (g & Ig & RG). destruct (EL g tg Ig Itg RG) as (_ & _ & _ & _ & _ & _ & _ & _ & _ & _ & O). specialize (O y). specialize (M g Ig).
    eapply Rle_trans; [exact O|].
    replace (INR (2 * vsize (VNode sa sb)) * e + INR (vsize (VNode sa sb)) * d) with ((INR (2 * vsize (VNode sa sb)) * e + INR (vsize sa) * d + INR (vsize sb) * d) + d) by lra.
    rewrite (exp_plus _ d), Rmult_assoc. apply Rmult_le_compat_l; [left; apply exp_pos|auto].
Qed.
End RoundMpe.

Theorem round_mpe {P : pops} (val : P -> R) B e d : pround P val B e d -> forall (m : mgr P) i s t L ud fuel, psdd_at val m i s t -> deterministic t ->
  SerializePsddNodes (m_heap m) [i] = Ok L -> (vsize s <= fuel)%nat -> mag t + INR (2 * vsize s) * e <= B ->
  exists x v ud', GetMPESolution fuel (m_heap m) L ud = Ok (x, v, ud') /\
    close (INR (2 * vsize s) * e) (weight t x) (val v) /\ base t x = true /\
    (forall y, weight t y <= exp (INR (4 * vsize s) * e + INR (vsize s) * d) * weight t x) /\ (forall w, x w = true -> In w (leaves s)) /\
    (forall j, In j L -> ud' j = None) /\ (forall j, ~ In j L -> ud' j = ud j).
Proof.
  intros HP m i s t L ud fuel A D EL HF HB. destruct (psdd_at_facts val _ _ _ _ A) as (HO & ND & C & L' & SO). pose proof (so_eq _ _ _ SO) as Q. rewrite EL in Q. injection Q as <-.
  destruct A as (_ & HR & _). destruct (rphase1 val B e d HP _ _ HO i L SO ud) as (c & E & H & U). pose proof (root_in (m_heap m) i L SO) as Hi.
  destruct (rchoice val B e d HP _ i L SO c H s ND i t Hi HR C D HB) as (b & K & In1 & BB & W & O).
  destruct (H i Hi) as [Nc _]. unfold cv in W, O. destruct (c i) as [[v k]|] eqn:Ec; [|congruence].
  destruct (aqueue_spec (m_heap m) c fuel [i] [(s, b)] (fun _ => false)) as (x & Ex & Hx). { constructor; [exact K|constructor]. } { simpl. lia. }
  unfold GetMPESolution. rewrite E, (front_root (m_heap m) i L SO). cbn [bind]. rewrite Ec. cbn [get bind]. rewrite Ex. cbn [bind fst].
  assert (agree_on (leaves s) x b) as AG by (intros w _; rewrite Hx; simpl; apply orb_false_r).
  exists x, v, (clear_ud L c). rewrite !(weight_depends s t C _ _ AG), (base_depends s t C _ _ AG). split; auto. split; auto. split; auto.
  split. { intros y. specialize (O y). eapply Rle_trans; [exact O|]. destruct W as [W _].
    replace (INR (4 * vsize s) * e + INR (vsize s) * d) with ((INR (2 * vsize s) * e + INR (vsize s) * d) + INR (2 * vsize s) * e).
    - rewrite (exp_plus _ (INR (2 * vsize s) * e)), Rmult_assoc. apply Rmult_le_compat_l; [left; apply exp_pos|auto].
    - replace (4 * vsize s)%nat with (2 * vsize s + 2 * vsize s)%nat by lia. rewrite (plus_INR (2 * vsize s)). ring. }
  split. { intros w Hw. rewrite Hx in Hw. simpl in Hw. rewrite orb_false_r in Hw. auto. }
  split; intros j Hj; rewrite clear_ud_spec; destruct (memb j L) eqn:EM; auto; [apply memb_false in EM|apply memb_In in EM]; contradiction.
Qed.
