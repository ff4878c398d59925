(** GetMPESolution when parameters are compared up to a factor (C56). *)
From Coq Require Import Reals Lra.
From Verif Require Import Base Param ParamProofs Vtree VtreeProofs Spec SpecProofs Heap Manager HeapProofs SerProofs RepProofs LoadProofs
  MulProofs TreeProofs Query QueryProofs MpeProofs SampleProofs.
Local Open Scope R_scope.

(** an instantiation under which one element is live has the weight that element gives it *)
Lemma weight_one_elem x es e : ForallOrdPairs disj es -> In e es -> base (tp e) x = true ->
  rsum (fun e0 => weight (tp e0) x * weight (ts e0) x * tw e0) es = weight (tp e) x * weight (ts e) x * tw e.
Proof.
  intros FO I BP. revert I. induction FO as [|f l F FO IH]; intros I; [contradiction|]. rewrite Forall_forall in F. simpl.
  destruct I as [->|I].
  - rewrite (rsum_ext _ (fun _ => 0)); [rewrite rsum_0; lra|].
    intros g Hg. rewrite (weight_zero_off_base (tp g) x); [lra|]. specialize (F g Hg x). rewrite BP in F. simpl in F. auto.
  - rewrite IH by auto. specialize (F e I x). rewrite BP, andb_true_r in F. rewrite (weight_zero_off_base (tp f) x F). lra.
Qed.
Lemma weight_le_elems x m es : 0 <= m -> ForallOrdPairs disj es ->
  (forall e, In e es -> weight (tp e) x * weight (ts e) x * tw e <= m) ->
  rsum (fun e0 => weight (tp e0) x * weight (ts e0) x * tw e0) es <= m.
Proof.
  intros T0 D0 M. destruct (existsb (fun e => base (tp e) x) es) eqn:E.
  - apply existsb_exists in E as (e & He & B). rewrite (weight_one_elem x es e D0 He B). auto.
  - rewrite (rsum_ext _ (fun _ => 0)); [rewrite rsum_0; lra|]. intros e He.
    assert (base (tp e) x = false) as B. { apply not_true_is_false. intros B. apply not_true_iff_false in E. apply E. apply existsb_exists. eauto. }
    rewrite (weight_zero_off_base _ _ B). lra.
Qed.

Lemma Rep_nonneg {P : pops} (val : P -> R) (HP : parith P val) (h : heap P) t : forall i, Rep val h i t -> nonneg t.
Proof.
  unfold nonneg. induction t as [l|v a b|es IH] using ptree_ind2; intros i HR.
  - simpl. auto.
  - apply Rep_top_inv in HR as (nd & pt & pf & _ & _ & -> & ->). simpl. split; [split; apply (val_nonneg HP)|auto].
  - apply Rep_dec_inv in HR as (nd & les & _ & _ & F). apply all_nodes_dec. rewrite Forall_forall in IH.
    assert (forall te, In te es -> exists e, ElemRep val h e te) as K.
    { clear IH. induction F as [|e te les es HH F IHF]; intros f []; subst; eauto. }
    split; apply Forall_forall; intros te Hte; destruct (K te Hte) as (e & A & B & W).
    + rewrite W. apply (val_nonneg HP).
    + destruct (IH te Hte) as [I1 I2]. eauto.
Qed.

Section ApproxMpe.
Context {P : pops} (val : P -> R) (d : R) (HP : papprox P val d).
Notation heap := (heap P). Notation mgr := (mgr P). Notation node := (node P).
Notation Rep := (Rep val).
Context (vroot : vtree) (h : heap) (HO : heap_ok vroot h) (root : nat) (L : list nat) (SO : ser_of h root L).

Lemma not_gt a b : pgt a b = false -> val a <= exp d * val b.
Proof.
  rewrite (approx_gt HP). intros E. destruct (plt a b) eqn:F.
  - apply (approx_lt HP) in F. pose proof (val_nonneg HP b). pose proof (exp_ineq1_le d). pose proof (approx_pos HP). nra.
  - pose proof (approx_tri HP _ _ E F) as Q. apply (approx_close HP) in Q. auto.
Qed.
Lemma gt_lt a b : pgt a b = true -> val b < val a.
Proof. rewrite (approx_gt HP). apply (approx_lt HP). Qed.
Lemma exp_ge1 : 1 <= exp d.
Proof. pose proof (exp_ineq1_le d). pose proof (approx_pos HP). lra. Qed.

(** what the first pass leaves at a node *)
Definition cv (c : nat -> option (P * nat)) (i : nat) : R := match c i with Some (v, _) => val v | None => 0 end.
Definition ch (c : nat -> option (P * nat)) (i : nat) : nat := match c i with Some (_, k) => k | None => 0 end.
Definition elv (c : nat -> option (P * nat)) (e : elem P) : R := cv c (e_prime e) * cv c (e_sub e) * val (e_param e).
Definition local (c : nat -> option (P * nat)) (i : nat) : Prop :=
  c i <> None /\ match option_map (@n_body P) (nth_error h i) with
  | None => False
  | Some (BLit _) => cv c i = 1
  | Some (BTop _ pt pf) => cv c i = val (if Nat.eqb (ch c i) 0 then pf else pt) /\ val pt <= exp d * cv c i /\ val pf <= exp d * cv c i
  | Some (BDec es) => exists e, nth_error es (ch c i) = Some e /\ cv c i = elv c e /\ forall e', In e' es -> elv c e' <= exp d * cv c i
  end.
Lemma abest_spec c es : es <> [] -> (forall e, In e es -> c (e_prime e) <> None /\ c (e_sub e) <> None) ->
  exists v k e, mpe_best c es = Ok (v, k) /\ nth_error es k = Some e /\ val v = elv c e /\ forall e', In e' es -> elv c e' <= exp d * val v.
Proof.
  intros NE HC. unfold mpe_best.
  assert (forall rest pre best idx, es = pre ++ rest -> (forall e, In e pre -> elv c e <= exp d * val best) ->
    (best = pzero /\ idx = 0%nat \/ exists e, nth_error pre idx = Some e /\ val best = elv c e) ->
    exists v k n, foldM (mpe_elem c) rest (best, idx, length pre) = Ok (v, k, n) /\ (forall e, In e es -> elv c e <= exp d * val v) /\
      (v = pzero /\ k = 0%nat \/ exists e, nth_error es k = Some e /\ val v = elv c e)) as K.
  { induction rest as [|e rest IH]; intros pre best idx EL M B.
    - simpl. rewrite app_nil_r in EL. subst pre. eauto 10.
    - cbn [foldM]. destruct (HC e) as [Ha Hb]. { rewrite EL. apply in_app_iff. right. left. auto. }
      unfold mpe_elem at 1. destruct (c (e_prime e)) as [[va ka]|] eqn:Ea; [|congruence]. destruct (c (e_sub e)) as [[vb kb]|] eqn:Eb; [|congruence].
      cbn [get bind fst]. set (v := pmul (pmul va vb) (e_param e)).
      assert (val v = elv c e) as Ev. { unfold v, elv, cv. rewrite Ea, Eb, !(val_mul HP). reflexivity. }
      assert (es = (pre ++ [e]) ++ rest) as EL' by (rewrite <- app_assoc; auto).
      replace (S (length pre)) with (length (pre ++ [e])) by (rewrite app_length; simpl; lia).
      pose proof (val_nonneg HP v) as V0. pose proof exp_ge1 as E1.
      destruct (pgt v best) eqn:G.
      + apply gt_lt in G. apply (IH (pre ++ [e]) v (length pre) EL').
        * intros e' He'. apply in_app_iff in He' as [He'|[<-|[]]]; [|nra]. specialize (M e' He'). nra.
        * right. exists e. rewrite nth_error_app2, Nat.sub_diag by lia. auto.
      + apply not_gt in G. apply (IH (pre ++ [e]) best idx EL').
        * intros e' He'. apply in_app_iff in He' as [He'|[<-|[]]]; [auto|]. lra.
        * destruct B as [B|(e0 & B1 & B2)]; [auto|right]. exists e0. split; auto. rewrite nth_error_app1; auto. apply nth_error_Some. congruence. }
  destruct (K es [] pzero 0%nat eq_refl) as (v & k & n & E & M & B); [intros e []|auto|]. cbn [length] in E. rewrite E. cbn [bind fst].
  destruct B as [[-> ->]|(e & B1 & B2)]; [|eauto 10]. destruct es as [|e es']; [congruence|]. exists pzero, 0%nat, e. split; auto. split; auto. split; [|auto].
  specialize (M e (or_introl eq_refl)). rewrite (val_zero HP) in *.
  assert (0 <= elv c e). { unfold elv. apply Rmult_le_pos; [apply Rmult_le_pos|apply (val_nonneg HP)]; unfold cv.
    - destruct (c (e_prime e)) as [[a ?]|]; [apply (val_nonneg HP)|lra].
    - destruct (c (e_sub e)) as [[a ?]|]; [apply (val_nonneg HP)|lra]. }
  lra.
Qed.
Lemma local_ext c c' i : c' i = c i -> (forall nd es e, nth_error h i = Some nd -> n_body nd = BDec es -> In e es -> c' (e_prime e) = c (e_prime e) /\ c' (e_sub e) = c (e_sub e)) ->
  local c i -> local c' i.
Proof.
  unfold local, cv, ch. intros E F [A B]. rewrite E. split; auto. destruct (nth_error h i) as [nd|] eqn:En; simpl in *; auto.
  destruct (n_body nd) as [l|w pt pf|es] eqn:Eb; auto. destruct B as (e & B1 & B2 & B3).
  assert (forall e', In e' es -> elv c' e' = elv c e') as X. { intros e' He'. destruct (F nd es e' eq_refl Eb He') as [X Y]. unfold elv, cv. rewrite X, Y. reflexivity. }
  exists e. split; auto. rewrite X by (eapply nth_error_In; eauto). split; auto. intros e' He'. rewrite X by auto. auto.
Qed.
Lemma dec_nonempty i nd es : nth_error h i = Some nd -> n_body nd = BDec es -> es <> [].
Proof.
  intros E1 E2. pose proof (HO _ _ E1) as NO. unfold node_ok in NO. rewrite E2 in NO. apply NO.
Qed.
Lemma aphase1 ud : exists c, foldM (mpe_step h) (rev L) ud = Ok c /\ (forall i, In i L -> local c i) /\ (forall i, ~ In i L -> c i = ud i).
Proof.
  apply (bottom_up _ (fun L2 c => (forall i, In i L2 -> local c i) /\ (forall i, ~ In i L2 -> c i = ud i)) L ud).
  - intros L1 i L2 c EL [IH U].
    assert (i < length h)%nat as Hi by (eapply ser_lt; eauto; rewrite EL; apply in_app_iff; right; left; auto).
    assert (~ In i L2) as Ni. { pose proof (so_nodup _ _ _ SO) as ND. rewrite EL in ND. apply NoDup_remove_2 in ND. intros G. apply ND, in_app_iff. auto. }
    destruct (nth_error h i) as [nd|] eqn:En; [|apply nth_error_None in En; lia].
    assert (forall es e, n_body nd = BDec es -> In e es -> In (e_prime e) L2 /\ In (e_sub e) L2) as CH.
    { intros es e Eb He. exact (ser_elem h root L SO L1 i L2 nd es e EL En Eb He). }
    assert (exists v k, mpe_node c nd = Ok (v, k) /\ local (set_ud c i (Some (v, k))) i) as (v & k & Er & Hr).
    { unfold mpe_node, local, cv, ch. rewrite En. simpl. pose proof exp_ge1 as E1. destruct (n_body nd) as [l|w pt pf|es] eqn:Eb.
      - exists pone, 0%nat. rewrite set_ud_same. split; auto. split; [congruence|]. apply (val_one HP).
      - pose proof (val_nonneg HP pt). pose proof (val_nonneg HP pf). destruct (pgt pt pf) eqn:G.
        + apply gt_lt in G. exists pt, 1%nat. rewrite set_ud_same. split; auto. split; [congruence|]. simpl. split; auto. split; nra.
        + apply not_gt in G. exists pf, 0%nat. rewrite set_ud_same. split; auto. split; [congruence|]. simpl. split; auto. split; nra.
      - destruct (abest_spec c es) as (v & k & e & B1 & B2 & B3 & B4).
        + eapply dec_nonempty; eauto.
        + intros e He. destruct (CH es e eq_refl He) as [I1 I2]. split; [apply (IH _ I1)|apply (IH _ I2)].
        + exists v, k. rewrite set_ud_same. split; auto. split; [congruence|]. 
          assert (forall e', In e' es -> elv (set_ud c i (Some (v, k))) e' = elv c e') as X.
          { intros e' He'. destruct (CH es e' eq_refl He') as [I1 I2]. unfold elv, cv. rewrite !set_ud_other; auto; intros G; rewrite G in *; auto. }
          exists e. split; auto. rewrite X by (eapply nth_error_In; eauto). split; auto. intros e' He'. rewrite X; auto. }
    exists (set_ud c i (Some (v, k))). unfold mpe_step, node_of. rewrite En. cbn [get bind]. rewrite Er. cbn [bind]. split; auto. split.
    + intros j Hj. destruct (Nat.eq_dec j i) as [->|Nji]; auto. destruct Hj as [->|Hj]; [congruence|].
      apply (local_ext c); [apply set_ud_other; auto| |auto]. intros nd' es e E1 E2 He.
      apply in_split in Hj as (L3 & L4 & ->).
      destruct (ser_elem h root L SO (L1 ++ i :: L3) j L4 nd' es e) as [I1 I2]; auto. { rewrite EL, <- app_assoc. reflexivity. }
      rewrite !set_ud_other; auto; intros G; apply Ni; rewrite G in *; apply in_app_iff; right; right; auto.
    + intros j Hj. rewrite set_ud_other; [|intros ->; apply Hj; left; auto]. apply U. intros G. apply Hj. right; auto.
  - split; [intros i []|auto].
Qed.
(** the bits the second pass collects below a node *)
Inductive cho (c : nat -> option (P * nat)) : vtree -> nat -> inst -> Prop :=
| cho_lit w i nd l b : nth_error h i = Some nd -> n_body nd = BLit l -> (forall v, b v = N.eqb v (Z.abs_N l) && Z.ltb 0 l) -> cho c (Leaf w) i b
| cho_top w i nd u pt pf b : nth_error h i = Some nd -> n_body nd = BTop u pt pf -> c i <> None -> (forall v, b v = N.eqb v u && negb (Nat.eqb (ch c i) 0)) -> cho c (Leaf w) i b
| cho_dec x y i nd es e b b1 b2 : nth_error h i = Some nd -> n_body nd = BDec es -> c i <> None -> nth_error es (ch c i) = Some e ->
    cho c x (e_prime e) b1 -> cho c y (e_sub e) b2 -> (forall v, b v = b1 v || b2 v) -> cho c (VNode x y) i b.
Lemma aqueue_spec c : forall fuel q tvs x, Forall2 (fun i sb => cho c (fst sb) i (snd sb)) q tvs -> (list_sum (map (fun sb => vsize (fst sb)) tvs) <= fuel)%nat ->
  exists x', mpe_queue fuel h c q x = Ok x' /\ forall v, x' v = x v || existsb (fun sb : vtree * inst => snd sb v) tvs.
Proof.
  induction fuel as [|fuel IH]; intros q tvs x F HF.
  - destruct F as [|i [s b] q tvs Hi F]; [|destruct s; simpl in HF; lia]. exists x. simpl. split; auto. intros v. rewrite orb_false_r. auto.
  - destruct F as [|i [s b] q tvs Hi F]. { exists x. simpl. split; auto. intros v. rewrite orb_false_r. auto. }
    cbn [mpe_queue]. unfold node_of. simpl in Hi. destruct Hi as [w i nd l b E1 E2 Hb|w i nd u pt pf b E1 E2 Nc Hb|s1 s2 i nd es e b b1 b2 E1 E2 Nc Ee K1 K2 Hb]; rewrite E1; cbn [get bind]; rewrite E2.
    + destruct (IH q tvs (if lit_sign l then vset x (lit_var l) true else x) F) as (x' & Ex & Hx). { simpl in HF. lia. }
      exists x'. split; auto. intros v. rewrite Hx. simpl. rewrite Hb. unfold lit_sign, lit_var. destruct (Z.ltb 0 l); simpl.
      * unfold vset. destruct (N.eqb v (Z.abs_N l)); simpl; [|auto]. rewrite orb_true_r. reflexivity.
      * rewrite andb_false_r. reflexivity.
    + unfold ch in Hb. destruct (c i) as [[vi k]|] eqn:Ec; [|congruence]. cbn [get bind snd].
      destruct (IH q tvs (if Nat.eqb k 0 then x else vset x u true) F) as (x' & Ex & Hx). { simpl in HF. lia. }
      exists x'. split; auto. intros v. rewrite Hx. cbn [existsb fst snd]. rewrite Hb. destruct (Nat.eqb k 0); simpl.
      * rewrite andb_false_r. reflexivity.
      * unfold vset. destruct (N.eqb v u); simpl; [|auto]. rewrite orb_true_r. reflexivity.
    + unfold ch in Ee. destruct (c i) as [[vi k]|] eqn:Ec; [|congruence]. cbn [get bind snd]. rewrite Ee. cbn [get bind].
      destruct (IH (q ++ [e_prime e; e_sub e]) (tvs ++ [(s1, b1); (s2, b2)]) x) as (x' & Ex & Hx).
      { apply Forall2_app; auto. }
      { rewrite map_app, list_sum_app_nat. simpl. simpl in HF. lia. }
      exists x'. split; auto. intros v. rewrite Hx, existsb_app. cbn [existsb fst snd]. rewrite Hb.
      destruct (x v), (existsb _ tvs), (b1 v), (b2 v); reflexivity.
Qed.
(** what the reported value and bits mean *)
Lemma achoice c : (forall i, In i L -> local c i) -> forall s, NoDup (leaves s) -> forall i t, In i L -> Rep h i t -> conforms s t -> deterministic t ->
  exists b, cho c s i b /\ (forall v, b v = true -> In v (leaves s)) /\ base t b = true /\ weight t b = cv c i /\ 0 <= cv c i /\
    forall y, weight t y <= exp (INR (vsize s) * d) * cv c i.
Proof.
  intros HL. pose proof (approx_pos HP) as D0. induction s as [w|sa IHa sb IHb]; intros ND i t Hi HR C D; destruct (HL i Hi) as [Nc LC];
  inversion HR as [j nd l E1 E2|j nd u pt pf E1 E2|j nd es tes E1 E2 E3]; subst t; simpl in C; try contradiction; rewrite E1 in LC; simpl in LC; rewrite E2 in LC.
  - exists (fun v => N.eqb v (Z.abs_N l) && Z.ltb 0 l). split; [eapply cho_lit; eauto|].
    split. { intros v Hv. apply andb_true_iff in Hv as [Hv _]. apply N.eqb_eq in Hv. left. congruence. }
    simpl. unfold lit_sat. rewrite N.eqb_refl. simpl. rewrite eqb_reflx. split; auto. split; [auto|]. split; [lra|].
    intros y. rewrite LC, Rmult_1_l. pose proof (exp_ineq1_le d). destruct (Bool.eqb (y (Z.abs_N l)) (0 <? l)%Z); lra.
  - destruct LC as (V & M1 & M2). exists (fun v => N.eqb v u && negb (Nat.eqb (ch c i) 0)). split; [eapply cho_top; eauto|].
    split. { intros v Hv. apply andb_true_iff in Hv as [Hv _]. apply N.eqb_eq in Hv. left. congruence. }
    simpl. split; auto. rewrite N.eqb_refl. rewrite Rmult_1_l. split; [rewrite V; destruct (Nat.eqb _ 0); auto|]. split; [rewrite V; apply (val_nonneg HP)|].
    intros y. destruct (y u); auto.
  - destruct LC as (e & Ee & V & M). destruct C as [NE C]. rewrite Forall_forall in C. apply all_nodes_dec in D as [DD D]. rewrite Forall_forall in D.
    simpl in ND. destruct (leaves_disjoint sa sb ND) as (NDa & NDb & DJ).
    assert (forall f, In f es -> In (e_prime f) L /\ In (e_sub f) L) as CL.
    { intros f Hf. split; apply (so_in _ _ _ SO); (eapply reach_snoc; [apply (so_in _ _ _ SO); exact Hi|exact E1|apply in_children; eauto 10]). }
    assert (exists te, nth_error tes (ch c i) = Some te /\ ElemRep val h e te) as (te & Ete & A & B & W).
    { clear - E3 Ee. revert Ee. generalize (ch c i). intros k. revert k. induction E3 as [|f tf es tes HH F IH]; intros [|k] E; try discriminate.
      - injection E as ->. simpl. eauto.
      - apply IH; auto. }
    pose proof (nth_error_In _ _ Ee) as Ie. pose proof (nth_error_In _ _ Ete) as Ite.
    destruct (C te Ite) as [C1 C2]. destruct (D te Ite) as [D1 D2]. destruct (CL e Ie) as [L1 L2].
    destruct (IHa NDa _ _ L1 A C1 D1) as (b1 & K1 & In1 & Ba1 & W1 & P1 & _). destruct (IHb NDb _ _ L2 B C2 D2) as (b2 & K2 & In2 & Ba2 & W2 & P2 & _).
    exists (fun v => b1 v || b2 v). split; [eapply cho_dec; eauto|].
    split. { intros v Hv. simpl. apply in_app_iff. apply orb_true_iff in Hv as [Hv|Hv]; auto. }
    assert (agree_on (leaves sa) (fun v => b1 v || b2 v) b1) as A1.
    { intros v Hv. destruct (b2 v) eqn:G; [|apply orb_false_r]. exfalso. eapply DJ; eauto. }
    assert (agree_on (leaves sb) (fun v => b1 v || b2 v) b2) as A2.
    { intros v Hv. destruct (b1 v) eqn:G; [|reflexivity]. exfalso. eapply DJ; eauto. }
    set (x := fun v => b1 v || b2 v) in *.
    assert (base (tp te) x = true) as BP by (rewrite (base_depends sa _ C1 _ _ A1); auto).
    assert (base (ts te) x = true) as BS by (rewrite (base_depends sb _ C2 _ _ A2); auto).
    assert (weight (TDec tes) x = cv c i) as WX.
    { rewrite weight_dec, (weight_one_elem x tes te DD Ite BP), V. unfold elv.
      rewrite (weight_depends sa _ C1 _ _ A1), (weight_depends sb _ C2 _ _ A2), W1, W2, W. reflexivity. }
    assert (0 <= cv c i) as V0. { rewrite V. unfold elv. apply Rmult_le_pos; [apply Rmult_le_pos; auto|apply (val_nonneg HP)]. }
    split; [rewrite base_dec; apply existsb_exists; exists te; rewrite BP, BS; auto|]. split; auto. split; auto.
    intros y. rewrite weight_dec.
    assert (INR (vsize (VNode sa sb)) * d = INR (vsize sa) * d + INR (vsize sb) * d + d) as VS.
    { cbn [vsize]. rewrite !plus_INR. change (INR 1) with 1. ring. }
    rewrite VS, !exp_plus. apply weight_le_elems; auto.
    { pose proof (exp_pos (INR (vsize sa) * d)). pose proof (exp_pos (INR (vsize sb) * d)). pose proof (exp_pos d).
      apply Rmult_le_pos; auto. left. apply Rmult_lt_0_compat; auto. apply Rmult_lt_0_compat; auto. }
    intros tf Itf. destruct (In_nth_error _ _ Itf) as [kf Ekf].
    assert (exists f, In f es /\ ElemRep val h f tf) as (f & If & Fa & Fb & Fw).
    { clear - E3 Itf. induction E3 as [|f tf' es tes HH F IH]; [contradiction|]. destruct Itf as [->|Itf]; [exists f; split; [left; auto|exact HH]|].
      destruct (IH Itf) as (g & G1 & G2). exists g. split; [right; auto|auto]. }
    destruct (C tf Itf) as [C3 C4]. destruct (D tf Itf) as [D3 D4]. destruct (CL f If) as [L3 L4].
    destruct (IHa NDa _ _ L3 Fa C3 D3) as (_ & _ & _ & _ & _ & Q1 & O1). destruct (IHb NDb _ _ L4 Fb C4 D4) as (_ & _ & _ & _ & _ & Q2 & O2).
    specialize (O1 y). specialize (O2 y). specialize (M f If). unfold elv in M.
    assert (nonneg (tp tf)) as NN1. { eapply (Rep_nonneg val HP); eauto. } assert (nonneg (ts tf)) as NN2. { eapply (Rep_nonneg val HP); eauto. }
    pose proof (weight_nonneg _ y NN1). pose proof (weight_nonneg _ y NN2). pose proof (val_nonneg HP (e_param f)) as Fp. rewrite Fw.
    set (ea := exp (INR (vsize sa) * d)) in *. set (eb := exp (INR (vsize sb) * d)) in *.
    assert (0 < ea) by apply exp_pos. assert (0 < eb) by apply exp_pos.
    apply Rle_trans with (ea * cv c (e_prime f) * (eb * cv c (e_sub f)) * val (e_param f)).
    { apply Rmult_le_compat_r; auto. apply Rmult_le_compat; auto. }
    replace (ea * cv c (e_prime f) * (eb * cv c (e_sub f)) * val (e_param f)) with (ea * eb * (cv c (e_prime f) * cv c (e_sub f) * val (e_param f))) by ring.
    rewrite !Rmult_assoc. apply Rmult_le_compat_l; [lra|]. apply Rmult_le_compat_l; [lra|]. rewrite <- !Rmult_assoc. auto.
Qed.
End ApproxMpe.

Lemma approx_mpe {P : pops} (val : P -> R) d : papprox P val d -> forall (m : mgr P) i s t L ud fuel, psdd_at val m i s t -> deterministic t ->
  SerializePsddNodes (m_heap m) [i] = Ok L -> (vsize s <= fuel)%nat ->
  exists x v ud', GetMPESolution fuel (m_heap m) L ud = Ok (x, v, ud') /\
    weight t x = val v /\ base t x = true /\ (forall y, weight t y <= exp (INR (vsize s) * d) * val v) /\ (forall w, x w = true -> In w (leaves s)) /\
    (forall j, In j L -> ud' j = None) /\ (forall j, ~ In j L -> ud' j = ud j).
Proof.
  intros HP m i s t L ud fuel A D EL HF. destruct (psdd_at_facts val _ _ _ _ A) as (HO & ND & C & L' & SO). pose proof (so_eq _ _ _ SO) as Q. rewrite EL in Q. injection Q as <-.
  destruct A as (_ & HR & _). destruct (aphase1 val d HP _ _ HO i L SO ud) as (c & E & H & U). pose proof (root_in (m_heap m) i L SO) as Hi.
  destruct (achoice val d HP _ i L SO c H s ND i t Hi HR C D) as (b & K & In1 & B & W & _ & O).
  destruct (H i Hi) as [Nc _]. unfold cv in W, O. destruct (c i) as [[v k]|] eqn:Ec; [|congruence].
  destruct (aqueue_spec (m_heap m) c fuel [i] [(s, b)] (fun _ => false)) as (x & Ex & Hx). { constructor; [exact K|constructor]. } { simpl. lia. }
  unfold GetMPESolution. rewrite E, (front_root (m_heap m) i L SO). cbn [bind]. rewrite Ec. cbn [get bind]. rewrite Ex. cbn [bind fst].
  assert (agree_on (leaves s) x b) as AG by (intros w _; rewrite Hx; simpl; apply orb_false_r).
  exists x, v, (clear_ud L c). split; auto. split; [rewrite (weight_depends s t C _ _ AG); auto|]. split; [rewrite (base_depends s t C _ _ AG); auto|].
  split; auto. split. { intros w Hw. rewrite Hx in Hw. simpl in Hw. rewrite orb_false_r in Hw. auto. }
  split; intros j Hj; rewrite clear_ud_spec; destruct (memb j L) eqn:EM; auto; [apply memb_false in EM|apply memb_In in EM]; contradiction.
Qed.
