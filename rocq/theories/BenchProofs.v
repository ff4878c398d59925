(** Proofs about the benchmark program. *)
From Coq Require Import Reals Lra.
From Verif Require Import Base Param Vtree VtreeProofs Spec SpecProofs Heap Manager HeapProofs SerProofs RepProofs LoadProofs MulProofs
  TreeProofs Query QueryProofs MpeProofs SampleProofs Bench.
Local Open Scope R_scope.

(** ** What the queries compute *)
(** The product of the parameters of true/false nodes only *)
Fixpoint tops_weight (t : ptree) (y : inst) : R :=
  match t with
  | TLit l => if lit_sat l y then 1 else 0
  | TTop v a b => if y v then a else b
  | TDec es => rsum (fun e => tops_weight (fst (fst e)) y * tops_weight (snd (fst e)) y) es
  end.
(** The PSDD with all parameters of decision nodes replaced by one *)
Fixpoint strip (t : ptree) : ptree :=
  match t with
  | TDec es => TDec (map (fun e => (strip (fst (fst e)), strip (snd (fst e)), 1)) es)
  | _ => t
  end.
Lemma rsum_map {A B} (f : B -> R) (g : A -> B) l : rsum f (map g l) = rsum (fun a => f (g a)) l.
Proof. induction l as [|a l IH]; simpl; auto. rewrite IH. auto. Qed.
Lemma strip_weight t y : weight (strip t) y = tops_weight t y.
Proof.
  induction t as [l|v a b|es IH] using ptree_ind2; auto. simpl strip. rewrite weight_dec, rsum_map. simpl. apply rsum_ext. intros e He.
  rewrite Forall_forall in IH. destruct (IH e He) as [I1 I2]. unfold tp, ts, tw in *. simpl. rewrite I1, I2. ring.
Qed.
Lemma strip_base t y : base (strip t) y = base t y.
Proof.
  induction t as [l|v a b|es IH] using ptree_ind2; auto. simpl strip. rewrite !base_dec. rewrite Forall_forall in IH.
  induction es as [|e es IHe]; auto. cbn [map existsb]. f_equal; [|apply IHe; intros; apply IH; simpl; auto].
  destruct (IH e (or_introl eq_refl)) as [I1 I2]. unfold tp, ts in *. cbn [fst snd]. rewrite I1, I2. auto.
Qed.
Lemma strip_conforms vt : forall t, conforms vt t -> conforms vt (strip t).
Proof.
  induction vt as [v|a IHa b IHb]; intros t C; destruct t as [l|w p q|es]; simpl in C; try contradiction; auto.
  destruct C as [NE C]. split; [destruct es; simpl; congruence|]. rewrite Forall_forall in C. apply Forall_map, Forall_forall. intros e He.
  destruct (C e He). unfold tp, ts in *. simpl. auto.
Qed.
Lemma strip_tops t : tops_one t -> tops_one (strip t).
Proof.
  unfold tops_one. induction t as [l|v a b|es IH] using ptree_ind2; auto. intros H. apply all_nodes_dec in H as [_ H]. simpl strip. apply all_nodes_dec.
  split; auto. rewrite Forall_forall in *. intros e' He'. apply in_map_iff in He' as (e & <- & He). destruct (IH e He), (H e He). unfold tp, ts in *. simpl. auto.
Qed.
Lemma strip_nonneg t : nonneg t -> nonneg (strip t).
Proof.
  unfold nonneg. induction t as [l|v a b|es IH] using ptree_ind2; auto. intros H. apply all_nodes_dec in H as [_ H]. simpl strip. apply all_nodes_dec.
  split; [apply Forall_map, Forall_forall; intros e _; unfold tw; simpl; lra|].
  rewrite Forall_forall in *. intros e' He'. apply in_map_iff in He' as (e & <- & He). destruct (IH e He), (H e He). unfold tp, ts in *. simpl. auto.
Qed.
Lemma strip_det t : deterministic t -> deterministic (strip t).
Proof.
  unfold deterministic. induction t as [l|v a b|es IH] using ptree_ind2; auto. intros H. apply all_nodes_dec in H as [H0 H]. simpl strip. apply all_nodes_dec.
  split.
  - clear -H0. induction H0 as [|e es F FO IH]; simpl; [constructor|]. constructor; auto. apply Forall_map. eapply Forall_impl; [|exact F].
    intros e' D x. unfold tp in *. simpl. rewrite !strip_base. apply D.
  - rewrite Forall_forall in *. intros e' He'. apply in_map_iff in He' as (e & <- & He). destruct (IH e He), (H e He). unfold tp, ts in *. simpl. auto.
Qed.

(** ** Maximum over the instantiations that agree with evidence *)
Definition rmax_list (l : list R) : R := fold_left (fun m v => Rmax v m) l 0.
Fixpoint tmx (mask x : inst) (t : ptree) : R :=
  match t with
  | TLit l => if mask (Z.abs_N l) then (if lit_sat l x then 1 else 0) else 1
  | TTop v a b => if mask v then (if x v then a else b) else Rmax a b
  | TDec es => rmax_list (map (fun e => tmx mask x (fst (fst e)) * tmx mask x (snd (fst e)) * snd e) es)
  end.
Lemma rmax_gen l : forall m, m <= fold_left (fun m v => Rmax v m) l m /\ (forall v, In v l -> v <= fold_left (fun m v => Rmax v m) l m) /\
  (fold_left (fun m v => Rmax v m) l m = m \/ In (fold_left (fun m v => Rmax v m) l m) l).
Proof.
  induction l as [|a l IH]; intros m; simpl.
  - split; [lra|]. split; [intros v []|auto].
  - destruct (IH (Rmax a m)) as (A & B & C). pose proof (Rmax_l a m). pose proof (Rmax_r a m). split; [lra|]. split.
    + intros v [->|Hv]; [lra|auto].
    + destruct C as [C|C]; auto. rewrite C. unfold Rmax. destruct (Rle_dec a m); auto.
Qed.
Lemma tmx_nonneg mask x t : nonneg t -> 0 <= tmx mask x t.
Proof.
  unfold nonneg. destruct t as [l|v a b|es]; intros H; simpl.
  - destruct (mask _), (lit_sat l x); lra.
  - simpl in H. pose proof (Rmax_l a b). destruct (mask v), (x v); lra.
  - unfold rmax_list. exact (proj1 (rmax_gen _ 0)).
Qed.
Lemma tmx_bound vt : forall t mask x y, conforms vt t -> nonneg t -> deterministic t -> agrees (leaves vt) mask x y -> weight t y <= tmx mask x t.
Proof.
  induction vt as [v|a IHa b IHb]; intros t mask x y C NN D A; destruct t as [l|w p q|es]; simpl in C; try contradiction.
  - subst v. simpl. unfold agrees in A. specialize (A (Z.abs_N l) (or_introl eq_refl)). unfold lit_sat. destruct (mask (Z.abs_N l)).
    + rewrite A by auto. lra.
    + destruct (Bool.eqb (y (Z.abs_N l)) _); lra.
  - subst v. simpl. specialize (A w (or_introl eq_refl)). destruct (mask w); [rewrite A by auto; lra|].
    pose proof (Rmax_l p q). pose proof (Rmax_r p q). destruct (y w); lra.
  - destruct C as [NE C]. pose proof (tmx_nonneg mask x _ NN) as T0.
    assert (forall e, In e es -> tmx mask x (tp e) * tmx mask x (ts e) * tw e <= tmx mask x (TDec es)) as M.
    { intros e He. simpl. unfold rmax_list. apply (proj1 (proj2 (rmax_gen _ 0))). apply in_map_iff. exists e. auto. }
    set (m := tmx mask x (TDec es)) in *. clearbody m. clear NE.
    assert (agrees (leaves a) mask x y) as Aa by (intros v Hv; apply A; simpl; apply in_app_iff; auto).
    assert (agrees (leaves b) mask x y) as Ab by (intros v Hv; apply A; simpl; apply in_app_iff; auto).
    apply all_nodes_dec in NN as [N0 N]. apply all_nodes_dec in D as [D0 D]. rewrite weight_dec.
    induction D0 as [|f es F FO IH]; [exact T0|]. inversion C as [|? ? [C1 C2] C']; subst. inversion N as [|? ? [N1 N2] N']; subst. inversion D as [|? ? [D1 D2] D']; subst. inversion N0; subst.
    rewrite Forall_forall in F. simpl. destruct (base (tp f) y) eqn:Bf.
    + rewrite (rsum_ext _ (fun _ => 0)); [rewrite rsum_0|].
      * specialize (M f (or_introl eq_refl)). specialize (IHa _ mask x y C1 N1 D1 Aa). specialize (IHb _ mask x y C2 N2 D2 Ab).
        pose proof (weight_nonneg _ y N1). pose proof (weight_nonneg _ y N2).
        assert (weight (tp f) y * weight (ts f) y <= tmx mask x (tp f) * tmx mask x (ts f)) by (apply Rmult_le_compat; auto).
        assert (weight (tp f) y * weight (ts f) y * tw f <= tmx mask x (tp f) * tmx mask x (ts f) * tw f) by (apply Rmult_le_compat_r; auto). lra.
      * intros g Hg. rewrite (weight_zero_off_base (tp g) y); [lra|]. specialize (F g Hg y). rewrite Bf in F. simpl in F. auto.
    + rewrite (weight_zero_off_base (tp f) y Bf). specialize (IH C').
      assert (rsum (fun e0 => weight (tp e0) y * weight (ts e0) y * tw e0) es <= m); [|lra]. apply IH; auto. intros; apply M; simpl; auto.
Qed.
Lemma rsum_ge {A} (f : A -> R) l a : (forall b, In b l -> 0 <= f b) -> In a l -> f a <= rsum f l.
Proof.
  induction l as [|b l IH]; intros H I; [contradiction|]. simpl. assert (0 <= rsum f l) as S0.
  { clear IH I. induction l as [|c l IH]; simpl; [lra|]. pose proof (H c (or_intror (or_introl eq_refl))).
    assert (0 <= rsum f l) by (apply IH; intros d [->|Hd]; apply H; simpl; auto). lra. }
  pose proof (H b (or_introl eq_refl)). destruct I as [->|I]; [lra|]. specialize (IH (fun c Hc => H c (or_intror Hc)) I). lra.
Qed.
Lemma tmx_attained vt : NoDup (leaves vt) -> forall t mask x, conforms vt t -> nonneg t -> 0 < tmx mask x t ->
  exists y, agrees (leaves vt) mask x y /\ tmx mask x t <= weight t y.
Proof.
  induction vt as [v|a IHa b IHb]; intros ND t mask x C NN T; destruct t as [l|w p q|es]; simpl in C; try contradiction.
  - subst v. simpl in *. destruct (mask (Z.abs_N l)) eqn:M.
    + exists x. split; [intros v Hv _; auto|]. lra.
    + exists (fun _ => Z.ltb 0 l). split; [intros v [<-|[]] Hm; congruence|]. unfold lit_sat. rewrite eqb_reflx. lra.
  - subst v. simpl in *. destruct (mask w) eqn:M.
    + exists x. split; [intros v Hv _; auto|]. lra.
    + exists (fun _ => if Rle_dec p q then false else true). split; [intros v [<-|[]] Hm; congruence|]. unfold Rmax. destruct (Rle_dec p q); lra.
  - destruct C as [NE C]. rewrite Forall_forall in C. simpl in T. destruct (rmax_gen (map (fun e => tmx mask x (fst (fst e)) * tmx mask x (snd (fst e)) * snd e) es) 0) as (_ & _ & K).
    unfold rmax_list in T. destruct K as [K|K]; [rewrite K in T; lra|]. apply in_map_iff in K as (e & Ke & He). fold (tp e) (ts e) (tw e) in Ke.
    destruct (C e He) as [C1 C2]. pose proof NN as NN'. apply all_nodes_dec in NN as [N0 N]. rewrite Forall_forall in N, N0. destruct (N e He) as [N1 N2]. specialize (N0 e He). simpl in N0.
    simpl in ND. destruct (leaves_disjoint a b ND) as (NDa & NDb & DJ).
    rewrite <- Ke in T. pose proof (tmx_nonneg mask x _ N1) as T1. pose proof (tmx_nonneg mask x _ N2) as T2.
    assert (0 < tmx mask x (tp e)) as P1. { destruct T1 as [T1|T1]; auto. rewrite <- T1 in T. lra. }
    assert (0 < tmx mask x (ts e)) as P2. { destruct T2 as [T2|T2]; auto. rewrite <- T2 in T. lra. }
    destruct (IHa NDa _ mask x C1 N1 P1) as (y1 & A1 & W1). destruct (IHb NDb _ mask x C2 N2 P2) as (y2 & A2 & W2).
    set (y := fun v => if in_dec N.eq_dec v (leaves a) then y1 v else y2 v).
    assert (agree_on (leaves a) y y1) as G1 by (intros v Hv; unfold y; destruct (in_dec N.eq_dec v (leaves a)); [auto|contradiction]).
    assert (agree_on (leaves b) y y2) as G2 by (intros v Hv; unfold y; destruct (in_dec N.eq_dec v (leaves a)); [exfalso; eapply DJ; eauto|auto]).
    exists y. split.
    + intros v Hv Hm. simpl in Hv. apply in_app_iff in Hv as [Hv|Hv]; [rewrite (G1 v Hv)|rewrite (G2 v Hv)]; auto.
    + simpl tmx. unfold rmax_list. rewrite <- Ke. rewrite weight_dec.
      apply Rle_trans with (weight (tp e) y * weight (ts e) y * tw e).
      * rewrite (weight_depends a _ C1 _ _ G1), (weight_depends b _ C2 _ _ G2). apply Rmult_le_compat_r; auto. apply Rmult_le_compat; auto.
      * apply (rsum_ge (fun e => weight (tp e) y * weight (ts e) y * tw e)); auto. intros e' He'. destruct (N e' He').
        apply all_nodes_dec in NN' as [N0' _]. rewrite Forall_forall in N0'.
        apply Rmult_le_pos; [apply Rmult_le_pos; apply weight_nonneg; auto|apply N0'; auto].
Qed.

(** ** The queries on nodes *)
Section Bench.
Context {P : pops} (val : P -> R) (HP : pexact P val).
Notation heap := (heap P). Notation node := (node P). Notation Rep := (Rep val).
Definition on_var (e : Z) : inst := only (Z.abs_N e).
Definition sign_of (e : Z) : inst := fun _ => Z.ltb 0 e.
Definition tquery (mpe : bool) (e : Z) (t : ptree) : R := if mpe then tmx (on_var e) (sign_of e) t else tev (on_var e) (sign_of e) t.
Definition vec_rel (mpe : bool) (evid : list Z) (vs : list P) (t : ptree) : Prop :=
  Forall2 (fun e v => val v = tquery mpe e (strip t)) evid vs.
Lemma Forall2_map_self {A B} (Q : A -> B -> Prop) f l : (forall a, Q a (f a)) -> Forall2 Q l (map f l).
Proof. intros H. induction l; simpl; constructor; auto. Qed.
Lemma batch_rel op (f g k : Z -> R) evid : forall a b, Forall2 (fun e v => val v = f e) evid a -> Forall2 (fun e v => val v = g e) evid b ->
  (forall e x y, val x = f e -> val y = g e -> val (op x y) = k e) -> Forall2 (fun e v => val v = k e) evid (batch op a b).
Proof.
  induction evid as [|e evid IH]; intros a b Ha Hb K; inversion Ha; inversion Hb; subst; unfold batch; cbn [combine map]; constructor; auto. apply IH; auto.
Qed.
Lemma max_op_val a b : val (max_op a b) = Rmax (val a) (val b).
Proof.
  unfold max_op, Rmax. destruct (plt a b) eqn:E; destruct (Rle_dec (val a) (val b)) as [L|L]; auto.
  - apply (val_lt HP) in E. lra.
  - assert (~ val a < val b) as NL by (intros G; apply (val_lt HP) in G; congruence). lra.
Qed.
Lemma bench_fun_ok mpe evid : node_fun_ok val (vec_rel mpe evid) (bench_node mpe evid).
Proof.
  split; [|split]; intros c nd.
  - intros l E. unfold bench_node. rewrite E. apply Forall2_map_self. intros e.
    assert (tquery mpe e (strip (TLit l)) = if N.eqb (Z.abs_N l) (Z.abs_N e) then (if lit_sat l (sign_of e) then 1 else 0) else 1) as -> by (destruct mpe; reflexivity).
    destruct (N.eqb_spec (Z.abs_N l) (Z.abs_N e)) as [A|A]; [|apply (val_one HP)]. unfold lit_sat, sign_of.
    destruct (Z.eqb_spec l e) as [->|NE].
    + rewrite eqb_reflx. apply (val_one HP).
    + assert (Bool.eqb (0 <? e)%Z (0 <? l)%Z = false) as ->; [|apply (val_zero HP)].
      destruct (Z.ltb_spec 0 e), (Z.ltb_spec 0 l); simpl; auto; exfalso; lia.
  - intros v pt pf E. unfold bench_node. rewrite E. apply Forall2_map_self. intros e. unfold tquery. destruct mpe; cbn [strip tmx tev]; unfold on_var, only, sign_of.
    + destruct (N.eqb v (Z.abs_N e)); [destruct (Z.ltb 0 e); auto|]. unfold Rmax. destruct (Rle_dec (val pt) (val pf)) as [G|G].
      * assert (pgt pt pf = false) as -> by (apply not_true_is_false; intros Q; apply (val_gt HP) in Q; lra). auto.
      * assert (pgt pt pf = true) as -> by (apply (val_gt HP); lra). auto.
    + destruct (N.eqb v (Z.abs_N e)); [destruct (Z.ltb 0 e); auto|]. apply (val_one HP).
  - intros es tes E F. unfold bench_node. rewrite E. clear E. unfold vec_rel.
    assert (forall (acc : list P) (r : Z -> R), Forall2 (fun e v => val v = r e) evid acc ->
      Forall2 (fun e v => val v = fold_left (fun m w => if mpe then Rmax w m else w + m) (map (fun te => tquery mpe e (strip (tp te)) * tquery mpe e (strip (ts te))) tes) (r e)) evid
        (fold_left (fun values e => let buffer := batch pmul (c (e_prime e)) (c (e_sub e)) in batch (if mpe then max_op else padd) buffer values) es acc)) as K.
    { induction F as [|e te es tes (A & B & C) F IH]; intros acc r HA; [exact HA|]. cbn [fold_left map]. cbv zeta.
      apply IH. apply (batch_rel _ (fun e => tquery mpe e (strip (tp te)) * tquery mpe e (strip (ts te))) r); auto.
      - apply (batch_rel pmul _ _ _ _ _ _ A B). intros e0 x y Hx Hy. rewrite (val_mul HP), Hx, Hy. auto.
      - intros e0 x y Hx Hy. destruct mpe; [rewrite max_op_val|rewrite (val_add HP)]; rewrite Hx, Hy; auto. }
    specialize (K (map (fun _ => pzero) evid) (fun _ => 0)).
    assert (forall e, tquery mpe e (strip (TDec tes)) =
      fold_left (fun m w => if mpe then Rmax w m else w + m) (map (fun te => tquery mpe e (strip (tp te)) * tquery mpe e (strip (ts te))) tes) 0) as EQ.
    { intros e. unfold tquery. destruct mpe; cbn [strip tmx tev].
      - unfold rmax_list. rewrite map_map. cbn [fst snd]. f_equal. apply map_ext. intros te. unfold tp, ts. ring.
      - rewrite rsum_map. cbn [fst snd]. clear. assert (forall m, fold_left (fun m w => w + m) (map (fun te => tev (on_var e) (sign_of e) (strip (tp te)) * tev (on_var e) (sign_of e) (strip (ts te))) tes) m =
          m + rsum (fun a : telem => tev (on_var e) (sign_of e) (strip (fst (fst a))) * tev (on_var e) (sign_of e) (strip (snd (fst a))) * 1) tes) as G.
        { induction tes as [|te tes IH]; intros m; simpl; [lra|]. rewrite IH. unfold tp, ts. simpl. lra. }
        rewrite G. lra. }
    assert (Forall2 (fun e v => val v = 0) evid (map (fun _ => pzero) evid)) as Z0 by (apply Forall2_map_self; intros; apply (val_zero HP)).
    specialize (K Z0). eapply Forall2_impl_in; [|exact K]. intros e v _ _ Q. cbv beta in *. rewrite EQ. exact Q.
Qed.
Context (vroot : vtree) (h : heap) (HO : heap_ok vroot h) (root : nat) (L : list nat) (SO : ser_of h root L).
Lemma query_values mpe evid t : Rep h root t -> exists vs, bench_query mpe h (rev L) evid = Ok vs /\ vec_rel mpe evid vs t.
Proof.
  intros HR. destruct (cached_spec val vroot h HO root L SO (vec_rel mpe evid) (bench_node mpe evid) (fun _ => map (fun _ => pzero) evid) (bench_fun_ok mpe evid)) as (c & E & H & _).
  unfold bench_query. rewrite E. cbn [bind]. rewrite rev_involutive. destruct (so_head _ _ _ SO) as [l EL]. rewrite EL. exists (c root). split; auto.
  apply H; auto. rewrite EL. left; auto.
Qed.
End Bench.

Definition in_leaves (vt : vtree) (evid : list Z) : Prop := Forall (fun e => In (Z.abs_N e) (leaves vt)) evid.
Lemma agrees_lit vt e y : In (Z.abs_N e) (leaves vt) -> agrees (leaves vt) (on_var e) (sign_of e) y <-> lit_sat e y = true.
Proof.
  intros I. unfold agrees, on_var, only, sign_of, lit_sat. split.
  - intros H. rewrite (H _ I (N.eqb_refl _)). apply eqb_reflx.
  - intros H v _ Hv. apply N.eqb_eq in Hv. subst v. apply eqb_prop in H. auto.
Qed.
Section Full.
Context {P : pops} (val : P -> R) (HP : pexact P val).
Theorem mar_query m root s t L evid : psdd_at val m root s t -> normalized t -> SerializePsddNodes (m_heap m) [root] = Ok L -> in_leaves s evid ->
  exists vs, MarQuery (m_heap m) (rev L) evid = Ok vs /\
    Forall2 (fun e (v : P) => forall x0, val v = sum_over (leaves s) (fun y => if lit_sat e y then tops_weight t y else 0) x0) evid vs.
Proof.
  intros A NO EL IE. destruct (psdd_at_facts val m root s t A) as (HO & ND & C & L' & SO).
  assert (L' = L) as -> by (pose proof (so_eq _ _ _ SO); congruence).
  destruct (query_values val HP _ _ HO _ _ SO false evid t) as (vs & E & V); [destruct A as (_ & R & _); apply R|].
  exists vs. split; auto. clear E. unfold vec_rel in V. induction V as [|e v ev vs Ev V IH]; [constructor|]. apply Forall_cons_iff in IE as [I IE].
  constructor; auto. intros x0. rewrite Ev. cbn [tquery]. rewrite (tev_sum s ND (strip t) _ _ x0 (strip_conforms s t C) (strip_tops t (normalized_tops_one t NO))).
  apply sum_over_ext'. intros y. unfold masked. rewrite strip_weight. destruct (agreesb _ _ _ y) eqn:G, (lit_sat e y) eqn:G2; auto.
  - apply agreesb_spec, (agrees_lit s e y I) in G. congruence.
  - apply (agrees_lit s e y I), agreesb_spec in G2. congruence.
Qed.
Theorem mpep_query m root s t L evid : psdd_at val m root s t -> nonneg t -> deterministic t -> SerializePsddNodes (m_heap m) [root] = Ok L -> in_leaves s evid ->
  exists vs, MpepQuery (m_heap m) (rev L) evid = Ok vs /\
    Forall2 (fun e (v : P) => (forall y, lit_sat e y = true -> tops_weight t y <= val v) /\ (0 < val v -> exists y, lit_sat e y = true /\ tops_weight t y = val v)) evid vs.
Proof.
  intros A NN DE EL IE. destruct (psdd_at_facts val m root s t A) as (HO & ND & C & L' & SO).
  assert (L' = L) as -> by (pose proof (so_eq _ _ _ SO); congruence).
  destruct (query_values val HP _ _ HO _ _ SO true evid t) as (vs & E & V); [destruct A as (_ & R & _); apply R|].
  exists vs. split; auto. clear E. unfold vec_rel in V. induction V as [|e v ev vs Ev V IH]; [constructor|]. apply Forall_cons_iff in IE as [I IE].
  constructor; auto. rewrite Ev. cbn [tquery].
  pose proof (strip_conforms s t C) as C'. pose proof (strip_nonneg t NN) as NN'. pose proof (strip_det t DE) as D'.
  assert (forall y, lit_sat e y = true -> tops_weight t y <= tmx (on_var e) (sign_of e) (strip t)) as UB.
  { intros y G. rewrite <- strip_weight. apply (tmx_bound s); auto. apply (agrees_lit s e y I); auto. }
  split; auto. intros G. destruct (tmx_attained s ND (strip t) _ _ C' NN' G) as (y & G1 & G2). apply (agrees_lit s e y I) in G1.
  exists y. split; auto. specialize (UB y G1). rewrite strip_weight in G2. lra.
Qed.
End Full.

(** ** How far the answers are off *)
Lemma tops_weight_nonneg t y : nonneg t -> 0 <= tops_weight t y.
Proof. intros H. rewrite <- strip_weight. apply weight_nonneg, strip_nonneg, H. Qed.
Lemma rsum_le {A} (f g : A -> R) l : (forall a, In a l -> f a <= g a) -> rsum f l <= rsum g l.
Proof. induction l as [|a l IH]; intros H; simpl; [lra|]. pose proof (H a (or_introl eq_refl)). specialize (IH (fun b Hb => H b (or_intror Hb))). lra. Qed.
Lemma tops_weight_above t y : normalized t -> nonneg t -> weight t y <= tops_weight t y.
Proof.
  unfold normalized. induction t as [l|v a b|es IH] using ptree_ind2; intros NO NN; [simpl; lra|simpl; lra|].
  pose proof NN as NN0. apply all_nodes_dec in NO as [S1 NO]. apply all_nodes_dec in NN as [N0 NN]. rewrite Forall_forall in *.
  rewrite weight_dec. simpl tops_weight. apply rsum_le. intros e He. destruct (IH e He) as [I1 I2], (NO e He) as [O1 O2], (NN e He) as [N1 N2].
  specialize (I1 O1 N1). specialize (I2 O2 N2). fold (tp e) (ts e).
  assert (tw e <= 1) as T1 by (rewrite <- S1; apply rsum_ge; auto).
  pose proof (weight_nonneg _ y N1) as W1. pose proof (weight_nonneg _ y N2) as W2. specialize (N0 e He). simpl in N0.
  apply Rle_trans with (weight (tp e) y * weight (ts e) y * 1).
  - apply Rmult_le_compat_l; [apply Rmult_le_pos; auto|auto].
  - rewrite Rmult_1_r. apply Rmult_le_compat; auto.
Qed.
(** Decision nodes with one element only *)
Definition single_elements : ptree -> Prop := all_nodes (fun t => match t with TDec es => length es = 1%nat | _ => True end).
Lemma tops_weight_single t y : normalized t -> single_elements t -> tops_weight t y = weight t y.
Proof.
  unfold normalized, single_elements. induction t as [l|v a b|es IH] using ptree_ind2; intros NO SE; auto.
  apply all_nodes_dec in NO as [S1 NO]. apply all_nodes_dec in SE as [E1 SE]. rewrite Forall_forall in *.
  destruct es as [|e [|e' es]]; try discriminate. rewrite weight_dec. simpl in *.
  destruct (IH e (or_introl eq_refl)) as [I1 I2], (NO e (or_introl eq_refl)) as [O1 O2], (SE e (or_introl eq_refl)) as [Q1 Q2].
  fold (tp e) (ts e). rewrite I1, I2; auto. replace (tw e) with 1 by lra. ring.
Qed.

(** ** GetMarginals on the reversed list *)
Section Marginals.
Context {P : pops} (val : P -> R) (HP : pexact P val).
Context (vroot : vtree) (h : heap P) (HO : heap_ok vroot h) (root : nat) (L : list nat) (SO : ser_of h root L).
Definition node_var (nd : node P) : option N := match n_body nd with BLit l => Some (lit_var l) | BTop v _ _ => Some v | BDec _ => None end.
Definition zero_but (f : option N) (mg : N -> option (P * P)) : Prop := forall v p, mg v = Some p -> f <> Some v -> val (fst p) = 0 /\ val (snd p) = 0.
Definition unit_vec (ds : list P) : Prop := length ds = length L /\ forall k d, nth_error ds k = Some d -> val d = if Nat.eqb k 0 then 1 else 0.
Lemma rev_index p j : nth_error (rev L) p = Some j -> marg_index (rev L) j = Some p.
Proof.
  intros E. destruct (marg_index_gen (rev L) (fun _ => None) 0 (NoDup_rev (so_nodup _ _ _ SO)) j) as [A _]. unfold marg_index. rewrite (A p E). reflexivity.
Qed.
Lemma push_zero d w ds c : unit_vec ds -> val d = 0 -> In c L -> exists ds', marg_push (marg_index (rev L)) d w ds c = Ok ds' /\ unit_vec ds'.
Proof.
  intros [UL UV] D I. apply in_rev in I. apply In_nth_error in I as [k Ek]. pose proof (rev_index k c Ek) as EI.
  assert (k < length ds)%nat as Hk. { rewrite UL, <- rev_length. apply nth_error_Some. congruence. }
  destruct (nth_error ds k) as [old|] eqn:Eo; [|apply nth_error_None in Eo; lia].
  unfold marg_push. rewrite EI. cbn [get bind]. rewrite Eo. cbn [get bind]. eexists. split; [reflexivity|]. split; [rewrite upd_nth_length; auto|].
  intros j d' E. rewrite nth_upd_nth in E by auto. destruct (Nat.eqb_spec j k) as [->|NE]; [|apply UV; auto].
  injection E as <-. rewrite (val_add HP), (val_mul HP), D, (UV k old Eo). destruct (Nat.eqb k 0); lra.
Qed.
Lemma reversed_fold f0 nd0 : nth_error (rev L) 0 = Some f0 -> nth_error h f0 = Some nd0 -> forall l pre st, rev L = pre ++ l -> unit_vec (fst st) -> zero_but (node_var nd0) (snd st) ->
  exists st', foldM (marg_step h (marg_index (rev L))) l st = Ok st' /\ zero_but (node_var nd0) (snd st').
Proof.
  intros E0 En0. induction l as [|i l IH]; intros pre [ds mg] EL UV ZB; [exists (ds, mg); auto|].
  assert (nth_error (rev L) (length pre) = Some i) as Ei by (rewrite EL, nth_error_app2, Nat.sub_diag; auto).
  assert (In i L) as Hi by (apply in_rev; eapply nth_error_In; eauto).
  assert (i < length h)%nat as Hlt by (eapply ser_lt; eauto). destruct (nth_error h i) as [nd|] eqn:En; [|apply nth_error_None in En; lia].
  assert (exists d, nth_error ds (length pre) = Some d /\ val d = if Nat.eqb (length pre) 0 then 1 else 0) as (d & Ed & Vd).
  { destruct UV as [UL UV]. simpl in UL, UV. assert (length pre < length ds)%nat as Hk by (rewrite UL, <- (rev_length L); apply nth_error_Some; congruence).
    destruct (nth_error ds (length pre)) as [d|] eqn:Ed; [|apply nth_error_None in Ed; lia]. exists d. auto. }
  assert (exists st1, marg_step h (marg_index (rev L)) (ds, mg) i = Ok st1 /\ unit_vec (fst st1) /\ zero_but (node_var nd0) (snd st1)) as (st1 & E1 & U1 & Z1).
  { unfold marg_step. unfold node_of. rewrite En. cbn [get bind]. rewrite (rev_index _ _ Ei). cbn [get bind]. rewrite Ed. cbn [get bind].
    assert (node_var nd <> node_var nd0 \/ node_var nd = None -> val d = 0) as D0.
    { intros H. rewrite Vd. destruct (Nat.eqb_spec (length pre) 0) as [Z|Z]; auto. exfalso. rewrite Z in Ei. rewrite Ei in E0. injection E0 as <-. rewrite En in En0. injection En0 as <-.
      destruct H as [H|H]; [congruence|]. unfold node_var in H. destruct (n_body nd) as [q|q1 q2 q3|es] eqn:Eb; try discriminate.
      (* the first node has no children *)
      destruct pre; [|discriminate]. simpl in EL. assert (L = rev l ++ i :: []) as EL2 by (rewrite <- (rev_involutive L), EL; reflexivity).
      pose proof (HO i nd En) as K. unfold node_ok in K. rewrite Eb in K. destruct K as [NE _]. destruct es as [|e es]; [congruence|].
      destruct (ser_elem h root L SO (rev l) i [] nd (e :: es) e EL2 En Eb (or_introl eq_refl)) as [[] _]. }
    destruct (n_body nd) as [q|w pt pf|es] eqn:Eb.
    - eexists. split; [reflexivity|]. split; auto. cbn [snd]. intros v p Ev NV. destruct (N.eq_dec v (lit_var q)) as [->|NE].
      + rewrite vset_same in Ev. injection Ev as <-. assert (node_var nd = Some (lit_var q)) as NQ by (unfold node_var; rewrite Eb; auto).
        assert (val d = 0) as Z by (apply D0; left; congruence).
        assert (val (fst (marg_find mg (lit_var q))) = 0 /\ val (snd (marg_find mg (lit_var q))) = 0) as [M1 M2].
        { unfold marg_find. destruct (mg (lit_var q)) as [p|] eqn:Em; [apply (ZB _ _ Em); auto|]. simpl. split; apply (val_zero HP). }
        destruct (lit_sign q); cbn [fst snd]; rewrite (val_add HP), ?M1, ?M2, Z; split; lra.
      + rewrite vset_other in Ev by auto. apply (ZB v p Ev NV).
    - eexists. split; [reflexivity|]. split; auto. cbn [snd]. intros v p Ev NV. destruct (N.eq_dec v w) as [->|NE].
      + rewrite vset_same in Ev. injection Ev as <-. assert (node_var nd = Some w) as NQ by (unfold node_var; rewrite Eb; auto).
        assert (val d = 0) as Z by (apply D0; left; congruence).
        assert (val (fst (marg_find mg w)) = 0 /\ val (snd (marg_find mg w)) = 0) as [M1 M2].
        { unfold marg_find. destruct (mg w) as [p|] eqn:Em; [apply (ZB _ _ Em); auto|]. simpl. split; apply (val_zero HP). }
        cbn [fst snd]. rewrite !(val_add HP), !(val_mul HP), M1, M2, Z. split; lra.
      + rewrite vset_other in Ev by auto. apply (ZB v p Ev NV).
    - assert (val d = 0) as Z by (apply D0; right; unfold node_var; rewrite Eb; auto).
      assert (forall es0 ds0, (forall e, In e es0 -> In e es) -> unit_vec ds0 -> exists ds', foldM (fun ds e =>
                  do ds1 <- marg_push (marg_index (rev L)) d (e_param e) ds (e_prime e) ;;
                  marg_push (marg_index (rev L)) d (e_param e) ds1 (e_sub e)) es0 ds0 = Ok ds' /\ unit_vec ds') as K.
      { induction es0 as [|e es0 IHe]; intros ds0 Hin U; [exists ds0; auto|]. cbn [foldM].
        assert (In (e_prime e) L /\ In (e_sub e) L) as [I1 I2].
        { split; apply (so_in _ _ _ SO); (eapply reach_snoc; [apply (so_in _ _ _ SO); exact Hi|exact En|apply in_children; eauto 10 using in_eq]). }
        destruct (push_zero d (e_param e) ds0 (e_prime e) U Z I1) as (ds1 & -> & U1). cbn [bind].
        destruct (push_zero d (e_param e) ds1 (e_sub e) U1 Z I2) as (ds2 & -> & U2). cbn [bind]. apply IHe; auto. intros; apply Hin; simpl; auto. }
      destruct (K es ds (fun e H => H) UV) as (ds' & -> & U'). cbn [bind]. eexists. split; [reflexivity|]. auto. }
  cbn [foldM]. rewrite E1. cbn [bind]. apply (IH (pre ++ [i])); auto. rewrite EL, <- app_assoc. reflexivity.
Qed.
Theorem reversed_marginals : exists mg f0 nd0, last L f0 = f0 /\ In f0 L /\ nth_error h f0 = Some nd0 /\ GetMarginals h (rev L) = Ok mg /\
  forall v p, mg v = Some p -> node_var nd0 <> Some v ->
    exists a b, p = (pdiv a (padd a b), pdiv b (padd a b)) /\ val a = 0 /\ val b = 0.
Proof.
  destruct (rev L) as [|f0 l] eqn:ER.
  { exfalso. destruct (so_head _ _ _ SO) as [l E]. apply (f_equal (@rev nat)) in ER. rewrite rev_involutive, E in ER. discriminate. }
  assert (nth_error (rev L) 0 = Some f0) as E0 by (rewrite ER; reflexivity).
  assert (In f0 L) as HI by (apply in_rev; rewrite ER; left; auto).
  assert (f0 < length h)%nat as Hlt by (eapply ser_lt; eauto). destruct (nth_error h f0) as [nd0|] eqn:En; [|apply nth_error_None in En; lia].
  assert (last L f0 = f0) as EL.
  { rewrite <- (rev_involutive L), ER. simpl. apply last_last. }
  destruct (reversed_fold f0 nd0 E0 En (rev L) [] (pone :: map (fun _ => pzero) l, fun _ => None)) as (st & E & ZB).
  - reflexivity.
  - split; cbn [fst].
    + rewrite <- (rev_length L), ER. simpl. rewrite map_length. auto.
    + intros [|k] d Ed; simpl in *; [injection Ed as <-; apply (val_one HP)|]. apply nth_error_In, in_map_iff in Ed as (_ & <- & _). apply (val_zero HP).
  - intros v p; discriminate.
  - rewrite ER in E. exists (fun v => match snd st v with Some (f, t) => let z := padd f t in Some (pdiv f z, pdiv t z) | None => None end), f0, nd0.
    split; auto. split; auto. split; auto. split; [unfold GetMarginals; rewrite E; reflexivity|].
    intros v p Ev NV. destruct (snd st v) as [[a b]|] eqn:Es; [|discriminate]. cbv zeta in Ev. injection Ev as <-.
    destruct (ZB v (a, b) Es NV) as [Z1 Z2]. exists a, b. auto.
Qed.
End Marginals.

(** ** The program *)
Lemma bench_evidence_vars {P : pops} (mg : N -> option (P * P)) draws : Forall2 (fun (d : N * bool) e => Z.abs_N e = fst d) draws (bench_evidence mg draws).
Proof. induction draws as [|[v b] ds IH]; constructor; auto. cbn. destruct (Bool.eqb _ _); lia. Qed.
(** The literal for a draw: the value drawn if the marginal of that value is not zero; [x_false], [x_true]: the marginals *)
Definition drawn {P : pops} (mg : N -> option (P * P)) (d : N * bool) (e : Z) : Prop :=
  exists x_false x_true, (mg (fst d) = Some (x_false, x_true) \/ (mg (fst d) = None /\ x_false = pzero /\ x_true = pzero)) /\
    match snd d, peq x_true pzero, peq x_false pzero with
    | true, false, _ | false, _, true => e = Z.of_N (fst d)
    | true, true, _ | false, _, false => e = (- Z.of_N (fst d))%Z
    end.
Lemma bench_evidence_drawn {P : pops} (mg : N -> option (P * P)) draws : Forall2 (drawn mg) draws (bench_evidence mg draws).
Proof.
  induction draws as [|[v b] ds IH]; constructor; auto. unfold drawn. cbn [fst snd]. unfold marg_find.
  destruct (mg v) as [[f t]|]; [exists f, t; split; auto|exists pzero, pzero; split; auto]; cbn [fst snd].
  - destruct b, (peq t pzero), (peq f pzero); reflexivity.
  - destruct b, (peq _ _); reflexivity.
Qed.
Theorem benchmark_run {P : pops} (val : P -> R) (HP : pexact P val) m root s t (draws : list (N * bool)) : psdd_at val m root s t -> normalized t -> nonneg t -> deterministic t ->
  Forall (fun d => In (fst d) (leaves s)) draws ->
  exists L mg evid a b, SerializePsddNodes (m_heap m) [root] = Ok L /\ Benchmark (m_heap m) root draws = Ok (length L, evid, a, b) /\
    GetMarginals (m_heap m) (rev L) = Ok mg /\ Forall2 (drawn mg) draws evid /\ Forall2 (fun (d : N * bool) e => Z.abs_N e = fst d) draws evid /\
    Forall2 (fun e (v : P) => (forall y, lit_sat e y = true -> tops_weight t y <= val v) /\ (0 < val v -> exists y, lit_sat e y = true /\ tops_weight t y = val v)) evid a /\
    Forall2 (fun e (v : P) => forall x0, val v = sum_over (leaves s) (fun y => if lit_sat e y then tops_weight t y else 0) x0) evid b.
Proof.
  intros A N NN D HD. destruct (psdd_at_facts val m root s t A) as (HO & _ & _ & L & SO).
  destruct (reversed_marginals val HP _ _ HO _ _ SO) as (mg & _ & _ & _ & _ & _ & EM & _).
  assert (Forall (fun e => In (Z.abs_N e) (leaves s)) (bench_evidence mg draws)) as HE.
  { clear EM. induction HD as [|[v b] ds H _ IH]; constructor; auto. cbn in H |- *. destruct (Bool.eqb _ _);
    match goal with |- In ?x _ => replace x with v by lia end; auto. }
  destruct (mpep_query val HP m root s t L _ A NN D (so_eq _ _ _ SO) HE) as (a & E1 & H1). destruct (mar_query val HP m root s t L _ A N (so_eq _ _ _ SO) HE) as (b & E2 & H2).
  exists L, mg, (bench_evidence mg draws), a, b. split; [apply SO|]. split.
  - unfold Benchmark. rewrite (so_eq _ _ _ SO). cbn [bind]. rewrite EM. cbn [bind]. rewrite E1. cbn [bind]. rewrite E2. reflexivity.
  - split; auto. split; [apply bench_evidence_drawn|]. split; [apply bench_evidence_vars|]. auto.
Qed.
(** The code on the PSDD of x1 and x2 *)
Definition Lone (o : parameter) : pops := {| car := parameter; pzero := p_default; pone := o;
  padd := p_add; pmul := p_mul; pdiv := p_div; peq := p_eq; plt := p_lt; pgt := p_gt;
  pnat := fun n => p_of_decimal (Fin (IZR (Z.of_N n))) |}.
Lemma one_log : p_of_decimal (Fin 1%R) = p_of_log (Fin 0%R).
Proof. unfold p_of_decimal, p_of_log, xlog. destruct (Rlt_dec 0 1) as [_|C]; [rewrite ln_1; reflexivity|lra]. Qed.
Definition imp_heap {P : pops} : heap P := [MkN [false] 0 (BLit 1); MkN [true] 0 (BLit 2); MkN [] 0 (BDec [MkE 0 1 pone])].

Definition imp_mgr {P : pops} : mgr P := MkM (VNode (Leaf 1) (Leaf 2)) imp_heap [0; 1; 2]%nat.
Lemma imp_built {P : pops} : (do (a, m1) <- GetPsddLiteralNode (@new_mgr P (VNode (Leaf 1) (Leaf 2))) 1 0 ;; do (b, m2) <- GetPsddLiteralNode m1 2 0 ;;
  GetConformedPsddDecisionNode m2 [a] [b] [pone] 0) = Ok (2%nat, imp_mgr).
Proof. reflexivity. Qed.
Definition zeros (l : list parameter) : list bool := map (fun p => is_neginf (par p)) l.
Lemma imp_run o : o = p_of_log (Fin 0%R) ->
  exists (mg : N -> option (Lone o * Lone o)) b, SerializePsddNodes (@imp_heap (Lone o)) [2%nat] = Ok [2; 0; 1]%nat /\ GetMarginals (@imp_heap (Lone o)) [1; 0; 2]%nat = Ok mg /\
    bench_evidence mg [(1, true); (1, false)]%N = [-1; 1]%Z /\ MarQuery (@imp_heap (Lone o)) [1; 0; 2]%nat [-1; 1]%Z = Ok b /\ zeros b = [true; false].
Proof.
  intros ->. eexists. eexists. split; [reflexivity|]. split; [reflexivity|]. split; [lazy; reflexivity|]. split; [reflexivity|]. lazy. reflexivity.
Qed.
Lemma imp_evidence : exists (mg : N -> option (Lcode * Lcode)) b, SerializePsddNodes (m_heap (@imp_mgr Lcode)) [2%nat] = Ok [2; 0; 1]%nat /\ GetMarginals (m_heap (@imp_mgr Lcode)) [1; 0; 2]%nat = Ok mg /\
    bench_evidence mg [(1, true); (1, false)]%N = [-1; 1]%Z /\ MarQuery (m_heap (@imp_mgr Lcode)) [1; 0; 2]%nat [-1; 1]%Z = Ok b /\ zeros b = [true; false].
Proof. exact (imp_run _ one_log). Qed.
