(** DirectSample (C31) and final forms of the query lemmas. *)
From Coq Require Import Reals Lra FunctionalExtensionality.
From Verif Require Import Base Param Vtree VtreeProofs Spec SpecProofs Heap Manager HeapProofs SerProofs RepProofs LoadProofs
  MulProofs TreeProofs Query QueryProofs MpeProofs.
Local Open Scope R_scope.

(** The sample determined by a list of draws: a decision node uses one draw u and takes element k when u falls into the k-th
    interval, whose length is the k-th parameter; then the prime and the sub are sampled; a top node uses one draw and is true when u is below
    its true parameter.  [sampled t us rest y]: the draws [us] give the true variables [y] and leave the draws [rest]. *)
Inductive sampled : ptree -> list R -> list R -> inst -> Prop :=
| sm_lit l us : sampled (TLit l) us us (fun v => N.eqb v (Z.abs_N l) && Z.ltb 0 l)
| sm_true v a b u us : u < a -> sampled (TTop v a b) (u :: us) us (fun w => N.eqb w v)
| sm_false v a b u us : a <= u -> sampled (TTop v a b) (u :: us) us (fun _ => false)
| sm_dec es k e u us us1 us2 y1 y2 : nth_error es k = Some e -> rsum tw (firstn k es) <= u -> u < rsum tw (firstn k es) + tw e ->
    sampled (tp e) us us1 y1 -> sampled (ts e) us1 us2 y2 -> sampled (TDec es) (u :: us) us2 (fun v => y1 v || y2 v).

Lemma sampled_in vt : forall t us rest y, conforms vt t -> sampled t us rest y -> forall v, y v = true -> In v (leaves vt).
Proof.
  induction vt as [w|a IHa b IHb]; intros t us rest y C S v Hv; inversion S; subst; simpl in C; try contradiction.
  - simpl in Hv. apply andb_true_iff in Hv as [Hv _]. apply N.eqb_eq in Hv. left. congruence.
  - apply N.eqb_eq in Hv. left. congruence.
  - discriminate.
  - destruct C as [_ C]. rewrite Forall_forall in C. apply nth_error_In in H. destruct (C e H) as [C1 C2]. simpl. apply in_app_iff.
    apply orb_true_iff in Hv as [Hv|Hv]; eauto.
Qed.
Lemma rsum_firstn {A} (f : A -> R) k l : (forall a, In a l -> 0 <= f a) -> rsum f (firstn k l) <= rsum f l.
Proof.
  revert k. induction l as [|a l IH]; intros [|k] H; simpl; try lra.
  - apply Rplus_le_le_0_compat; [apply H; left; auto|]. apply rsum_nonneg. intros; apply H; right; auto.
  - apply Rplus_le_compat_l. apply IH. intros; apply H; right; auto.
Qed.
(** Every sample has positive probability. *)
Lemma sampled_pos vt : NoDup (leaves vt) -> forall t us rest y, conforms vt t -> nonneg t -> normalized t -> (forall u, In u us -> 0 <= u < 1) ->
  sampled t us rest y -> 0 < weight t y /\ incl rest us.
Proof.
  induction vt as [w|a IHa b IHb]; intros ND t us rest y C NN NM U S; inversion S; subst; simpl in C; try contradiction.
  - simpl. unfold lit_sat. rewrite N.eqb_refl. simpl. rewrite eqb_reflx. split; [lra|]. intros z; auto.
  - subst. simpl. rewrite N.eqb_refl. simpl in NN. destruct NN as [[N1 N2] _]. split; [|intros z; right; auto].
    specialize (U u (or_introl eq_refl)). lra.
  - subst. simpl. simpl in NN, NM. destruct NN as [[N1 N2] _], NM as [NM _]. split; [|intros z; right; auto]. specialize (U u (or_introl eq_refl)). lra.
  - destruct C as [_ C]. rewrite Forall_forall in C. pose proof H as I. apply nth_error_In in I. destruct (C e I) as [C1 C2].
    simpl in ND. destruct (leaves_disjoint a b ND) as (NDa & NDb & DJ).
    pose proof NN as NN'. apply all_nodes_dec in NN as [N0 N]. rewrite Forall_forall in N0, N. destruct (N e I) as [N1 N2].
    apply all_nodes_dec in NM as [_ M]. rewrite Forall_forall in M. destruct (M e I) as [M1 M2].
    destruct (IHa NDa _ _ _ _ C1 N1 M1 (fun u' Hu => U u' (or_intror Hu)) H2) as [W1 I1].
    destruct (IHb NDb _ _ _ _ C2 N2 M2 (fun u' Hu => U u' (or_intror (I1 u' Hu))) H3) as [W2 I2].
    split; [|intros z Hz; right; auto].
    rewrite weight_dec. apply rsum_pos.
    + intros e' He'. destruct (N e' He') as [N1' N2']. apply Rmult_le_pos; [apply Rmult_le_pos; apply weight_nonneg; auto|]. apply N0; auto.
    + exists e. split; auto. apply Rmult_lt_0_compat; [apply Rmult_lt_0_compat|lra].
      * rewrite (weight_depends a _ C1 _ y1); auto. intros v Hv. destruct (y2 v) eqn:G; [|apply orb_false_r].
        apply (sampled_in b _ _ _ _ C2 H3) in G. exfalso. eapply DJ; eauto.
      * rewrite (weight_depends b _ C2 _ y2); auto. intros v Hv. destruct (y1 v) eqn:G; [|reflexivity].
        apply (sampled_in a _ _ _ _ C1 H2) in G. exfalso. eapply DJ; eauto.
Qed.

Section Sample.
Context {P : pops} (val : P -> R) (HP : pexact P val).
Notation Rep := (Rep val).
Lemma pick_spec u tes es acc racc h : Forall2 (ElemRep val h) es tes -> val acc = racc -> racc <= val u -> val u < racc + rsum tw tes ->
  exists k e te, pick u acc es = Ok e /\ nth_error es k = Some e /\ nth_error tes k = Some te /\ racc + rsum tw (firstn k tes) <= val u /\ val u < racc + rsum tw (firstn k tes) + tw te.
Proof.
  intros F. revert acc racc. induction F as [|e te es tes (A & B & C) F IH]; intros acc racc Ha Hl Hu; [simpl in Hu; lra|].
  cbn [pick]. assert (val (padd acc (e_param e)) = racc + tw te) as Ea by (rewrite (val_add HP), C; lra).
  destruct (plt u (padd acc (e_param e))) eqn:E.
  - apply (val_lt HP) in E. exists 0%nat, e, te. simpl. repeat split; auto; lra.
  - assert (racc + tw te <= val u). { apply Rnot_lt_le. intros G. rewrite <- Ea in G. apply (val_lt HP) in G. congruence. }
    destruct (IH (padd acc (e_param e)) (racc + tw te) Ea) as (k & e' & te' & Q1 & Q2 & Q3 & Q4 & Q5); auto.
    { rewrite rsum_cons in Hu. lra. }
    exists (S k), e', te'. cbn [firstn nth_error]. rewrite rsum_cons. repeat split; auto; lra.
Qed.
Lemma sample_spec (h : heap P) s : forall t i fuel x us, (exists root, heap_ok root h) -> Rep h i t -> conforms s t -> normalized t -> (i < fuel)%nat -> (vsize s <= length us)%nat ->
  (forall u, In u us -> val u < 1) ->
  exists x' us' y, DirectSample fuel h i x us = Ok (x', us') /\ sampled t (map val us) (map val us') y /\ (forall v, x' v = x v || y v) /\
    (length us <= vsize s + length us')%nat /\ (exists d, us = d ++ us').
Proof.
  induction s as [w|a IHa b IHb]; intros t i fuel x us HO HR C NM Hf HU U; destruct fuel as [|fuel]; try lia; cbn [DirectSample]; unfold node_of;
    inversion HR as [j nd l E1 E2|j nd v pt pf E1 E2|j nd es tes E1 E2 E3]; subst; simpl in C; try contradiction; rewrite E1; cbn [get bind]; rewrite E2.
  - exists (if Z.ltb 0 l then vset x (lit_var l) true else x), us. eexists. split; [reflexivity|]. split; [constructor|]. split; [|split; [simpl; lia|exists []; auto]].
    intros v. unfold lit_var. destruct (Z.ltb 0 l); [|rewrite andb_false_r, orb_false_r; auto]. rewrite andb_true_r. unfold vset. destruct (N.eqb v (Z.abs_N l)); simpl; [|rewrite orb_false_r; auto]. rewrite orb_true_r. auto.
  - destruct us as [|u us]; [simpl in HU; lia|]. cbn [draw bind fst snd map].
    destruct (plt u pt) eqn:E.
    + apply (val_lt HP) in E. exists (vset x v true), us. eexists. split; [reflexivity|]. split; [apply sm_true; auto|]. split; [|split; [simpl; lia|exists [u]; auto]].
      intros v'. unfold vset. destruct (N.eqb v' v); simpl; [|rewrite orb_false_r; auto]. rewrite orb_true_r. auto.
    + assert (val pt <= val u). { apply Rnot_lt_le. intros G. apply (val_lt HP) in G. congruence. }
      exists x, us. eexists. split; [reflexivity|]. split; [apply sm_false; auto|]. split; [intros v0; rewrite orb_false_r; auto|split; [simpl; lia|exists [u]; auto]].
  - destruct us as [|u us]; [simpl in HU; lia|]. cbn [draw bind fst snd map].
    destruct C as [_ C]. rewrite Forall_forall in C. apply all_nodes_dec in NM as [N0 N]. rewrite Forall_forall in N.
    destruct (pick_spec u tes es pzero 0 h E3 (val_zero HP) (val_nonneg HP u)) as (k & e & te & Ep & Ee & Ete & Lo & Hi).
    { rewrite N0, Rplus_0_l. apply U. left; auto. }
    rewrite Ep. cbn [bind]. rewrite Rplus_0_l in Lo, Hi.
    assert (ElemRep val h e te) as (A & B & D). { clear - E3 Ee Ete. revert k Ee Ete. induction E3; intros [|k] G1 G2; try discriminate; [injection G1 as <-; injection G2 as <-; auto|eauto]. }
    pose proof Ete as I. apply nth_error_In in I. pose proof Ee as I'. apply nth_error_In in I'. destruct (C te I) as [C1 C2], (N te I) as [N1 N2].
    assert ((e_prime e < fuel)%nat /\ (e_sub e < fuel)%nat) as [L1 L2].
    { destruct HO as [root HO]. specialize (HO _ _ E1). unfold node_ok in HO. rewrite E2 in HO. destruct HO as (_ & _ & FA). rewrite Forall_forall in FA. destruct (FA e I') as (Q1 & Q2 & _). lia. }
    simpl in HU. destruct (IHa (tp te) (e_prime e) fuel x us HO A C1 N1 L1) as (x1 & us1 & y1 & S1 & S2 & S3 & S4 & (d1 & S5)); [lia|intros; apply U; right; auto|].
    rewrite S1. cbn [bind fst snd].
    destruct (IHb (ts te) (e_sub e) fuel x1 us1 HO B C2 N2 L2) as (x2 & us2 & y2 & T1 & T2 & T3 & T4 & (d2 & T5)); [lia| |].
    { intros u' Hu. apply U. right. rewrite S5. apply in_app_iff; auto. }
    rewrite T1. exists x2, us2, (fun v => y1 v || y2 v). split; auto. split; [econstructor; eauto|].
    split; [intros v; rewrite T3, S3, orb_assoc; auto|]. split; [simpl; lia|]. exists (u :: d1 ++ d2). rewrite S5, T5. simpl. rewrite app_assoc. auto.
Qed.
End Sample.

(** ** Final forms *)
Section Final.
Context {P : pops} (val : P -> R) (HP : parith P val).
Notation Rep := (Rep val).
(** A PSDD in a manager *)
Definition psdd_at (m : mgr P) (i : nat) (s : vtree) (t : ptree) : Prop :=
  Wf m /\ Rep (m_heap m) i t /\ exists p, vt_of (m_heap m) i = Some p /\ subtree (m_vt m) p = Some s.
Lemma psdd_at_facts m i s t : psdd_at m i s t -> heap_ok (m_vt m) (m_heap m) /\ NoDup (leaves s) /\ conforms s t /\ exists L, ser_of (m_heap m) i L.
Proof.
  intros (W & HR & p & V & S). split; [apply W|]. split; [eapply subtree_nodup; eauto; apply W|]. split; [eapply Rep_conforms; eauto; apply W|].
  eapply serialize_root; [apply W|]. eapply Rep_lt; eauto.
Qed.
Lemma evaluate_full m i s t mask x : psdd_at m i s t ->
  exists v, Evaluate (m_heap m) mask x i = Ok v /\
    ((forall w, In w (leaves s) -> mask w = true) -> val v = weight t x) /\
    (tops_one t -> forall x0, val v = sum_over (leaves s) (fun y => if agreesb (leaves s) mask x y then weight t y else 0) x0) /\
    (normalized t -> (forall w, In w (leaves s) -> mask w = false) -> val v = 1).
Proof.
  intros A. destruct (psdd_at_facts _ _ _ _ A) as (HO & ND & C & L & SO). destruct A as (_ & HR & _).
  destruct (evaluate_spec val HP _ _ HO i L SO mask x t HR) as (v & E & Ev). exists v. unfold Evaluate. rewrite (so_eq _ _ _ SO). split; auto.
  rewrite Ev. split; [apply tev_full; auto|]. split; [intros T x0; apply (tev_sum s ND); auto|]. intros N M. eapply tev_out; eauto.
Qed.
Lemma consistent_full m i s t mask e f : psdd_at m i s t -> (forall j, reach (m_heap m) i j -> f j = false) ->
  exists b f', IsConsistent (m_heap m) mask e i f = Ok (b, f') /\ (forall j, f' j = f j) /\
    (b = true <-> exists y, agrees (leaves s) mask e y /\ base t y = true).
Proof.
  intros A Z. destruct (psdd_at_facts _ _ _ _ A) as (HO & ND & C & L & SO). destruct A as (_ & HR & _).
  destruct (consistent_spec val _ _ HO i L SO mask e f t HR) as (f' & E & Hf). { intros j Hj. apply Z, (so_in _ _ _ SO); auto. }
  exists (tcons mask e t), f'. unfold IsConsistent. rewrite (so_eq _ _ _ SO). split; auto. split; auto. apply tcons_spec; auto.
Qed.
Lemma method_full m i s t ev fuel : psdd_at m i s t -> (i < fuel)%nat ->
  exists b, node_consistent fuel (m_heap m) ev i = Ok b /\
    (b = true <-> exists y, (forall v w, In v (leaves s) -> ev v = Some w -> y v = w) /\ base t y = true).
Proof.
  intros A Hf. destruct (psdd_at_facts _ _ _ _ A) as (HO & ND & C & L & SO). destruct A as (_ & HR & _).
  exists (tcons (ev_mask ev) (ev_val ev) t). split; [eapply method_spec; eauto|]. rewrite (tcons_spec s ND t _ _ C).
  unfold agrees, ev_mask, ev_val. split; intros (y & Ag & B); exists y; split; auto.
  - intros v w Hv E. specialize (Ag v Hv). rewrite E in Ag. auto.
  - intros v Hv M. destruct (ev v) as [w|] eqn:E; [|discriminate]. rewrite (Ag v w); auto.
Qed.
Lemma bitset_full m i s t x n fuel : psdd_at m i s t -> (i < fuel)%nat ->
  exists b, node_consistent fuel (m_heap m) (full_evidence x n) i = Ok b /\
    (b = true <-> exists y, (forall v, In v (leaves s) -> (1 <= v <= n)%N -> y v = x v) /\ base t y = true) /\
    ((forall v, In v (leaves s) -> (1 <= v <= n)%N) -> b = base t x).
Proof.
  intros A Hf. destruct (method_full m i s t (full_evidence x n) fuel A Hf) as (b & E & Q). exists b. split; auto.
  assert (b = true <-> exists y, (forall v, In v (leaves s) -> (1 <= v <= n)%N -> y v = x v) /\ base t y = true) as Q'.
  { rewrite Q. unfold full_evidence. split; intros (y & Ag & B); exists y; split; auto.
    - intros v Hv [H1 H2]. apply Ag; auto. apply N.leb_le in H1, H2. rewrite H1, H2. reflexivity.
    - intros v w Hv. destruct (N.leb_spec 1 v) as [H1|H1]; [|discriminate]. destruct (N.leb_spec v n) as [H2|H2]; [|discriminate].
      simpl. intros [= <-]. apply Ag; auto. }
  split; auto. intros HV. destruct (psdd_at_facts _ _ _ _ A) as (_ & _ & C & _). destruct b.
  - destruct (proj1 Q' eq_refl) as (y & Ag & B). rewrite <- B. apply (base_depends s t C). intros v Hv. apply Ag; auto.
  - destruct (base t x) eqn:B; auto. apply (proj2 Q'). exists x. auto.
Qed.
Lemma set_flag_full m i s t e f L : psdd_at m i s t -> SerializePsddNodes (m_heap m) [i] = Ok L -> (forall j, In j L -> f j = false) ->
  exists f', SetActivationFlag (m_heap m) e L f = Ok f' /\ (forall j tj, In j L -> Rep (m_heap m) j tj -> f' j = base tj e) /\ (forall j, ~ In j L -> f' j = f j).
Proof.
  intros A EL Z. destruct (psdd_at_facts _ _ _ _ A) as (HO & ND & C & L' & SO). pose proof (so_eq _ _ _ SO) as Q. rewrite EL in Q. injection Q as <-.
  eapply set_flag_spec; eauto.
Qed.
Lemma count_full m i s t L x0 : psdd_at m i s t -> deterministic t -> SerializePsddNodes (m_heap m) [i] = Ok L ->
  ModelCount (m_heap m) L = Ok (count_over (leaves s) (base t) x0).
Proof.
  intros A D EL. destruct (psdd_at_facts _ _ _ _ A) as (HO & ND & C & L' & SO). pose proof (so_eq _ _ _ SO) as Q. rewrite EL in Q. injection Q as <-.
  destruct A as (_ & HR & _). rewrite (model_count_spec val _ _ HO i L SO t HR). f_equal. apply tcount_spec; auto.
Qed.
Lemma reach_vt root (h : heap P) i j : heap_ok root h -> reach h i j -> forall p, vt_of h i = Some p -> exists u, vt_of h j = Some (u ++ p).
Proof.
  intros HO. induction 1 as [|i nd c j E Hc _ IH]; intros p V; [exists []; auto|]. destruct (heap_ok_child _ _ _ _ _ HO E Hc) as (_ & b & Vc).
  unfold vt_of in V. rewrite E in V. injection V as <-. destruct (IH _ Vc) as [u Hu]. exists (u ++ [b]). rewrite <- app_assoc. auto.
Qed.
Lemma subtree_leaves root u : forall p s l, subtree root p = Some s -> subtree root (u ++ p) = Some l -> incl (leaves l) (leaves s).
Proof.
  induction u as [|b u IH]; intros p s l S1 S2; simpl in S2; [rewrite S1 in S2; injection S2 as ->; apply incl_refl|].
  destruct (subtree root (u ++ p)) as [[v|x y]|] eqn:E; try discriminate. eapply incl_tran; [|eapply IH; eauto].
  destruct b; injection S2 as <-; simpl; intros z Hz; apply in_app_iff; auto.
Qed.
Lemma marg_full m i s t L : psdd_at m i s t -> normalized t -> SerializePsddNodes (m_heap m) [i] = Ok L ->
  exists mg, GetMarginals (m_heap m) L = Ok mg /\
    (forall v, In v (leaves s) -> exists pf pt, mg v = Some (pf, pt) /\
       (forall x0, val pt = sum_over (leaves s) (fun y => if y v then weight t y else 0) x0) /\
       (forall x0, val pf = sum_over (leaves s) (fun y => if y v then 0 else weight t y) x0) /\
       (exists e, Evaluate (m_heap m) (only v) (fun _ => true) i = Ok e /\ val pt = val e) /\
       (exists e, Evaluate (m_heap m) (only v) (fun _ => false) i = Ok e /\ val pf = val e)) /\
    (forall v, ~ In v (leaves s) -> mg v = None).
Proof.
  intros A N EL. destruct (psdd_at_facts _ _ _ _ A) as (HO & ND & C & L' & SO). pose proof (so_eq _ _ _ SO) as Q. rewrite EL in Q. injection Q as <-.
  destruct A as (W & HR & p & V & S). destruct (rep_choice val _ _ HO) as [T HT].
  assert (T i = t) as ET by (eapply Rep_fun; [apply HT; eapply Rep_lt; eauto|auto]).
  pose proof (fun v => marg_fold val HP _ _ HO i L SO v T HT) as MF.
  destruct (MF 0%N) as (ds & mg & E & _). destruct (so_head _ _ _ SO) as [l0 El0].
  assert (forall v, (forall b, got val v b mg = tmarg v b t) /\ (mg v = None <-> forall i nd, In i L -> nth_error (m_heap m) i = Some nd -> match n_body nd with BLit l => lit_var l <> v | BTop w _ _ => w <> v | BDec _ => True end)) as K.
  { intros v. destruct (MF v) as (ds' & mg' & E' & G & NN). rewrite E in E'. injection E' as <- <-. rewrite ET in G. auto. }
  clear MF. rewrite El0 in E |- *. unfold GetMarginals. cbn [tl] in E. rewrite E. cbn [bind snd]. eexists. split; [reflexivity|]. split.
  - intros v Hv. destruct (K v) as [G _]. pose proof (G true) as G1. pose proof (G false) as G0.
    pose proof (tmarg_total t v N s ND C Hv) as TT. unfold got in G1, G0. destruct (mg v) as [[pf pt]|] eqn:Em; [|lra].
    exists (pdiv pf (padd pf pt)), (pdiv pt (padd pf pt)). split; auto.
    assert (val (padd pf pt) = 1) as Z by (rewrite (val_add HP); lra).
    assert (forall a, val (pdiv a (padd pf pt)) = val a) as DV. { intros a. rewrite (val_div HP), Z; [field|lra]. }
    rewrite !DV, G1, G0, !(tmarg_tev s ND t v _ C N Hv).
    assert (forall b y, agreesb (leaves s) (only v) (fun _ => b) y = Bool.eqb (y v) b) as AG.
    { intros b y. apply eq_true_iff_eq. rewrite agreesb_spec, eqb_true_iff. unfold agrees, only. split.
      - intros H. apply H; auto. apply N.eqb_refl.
      - intros H w _ Ew. apply N.eqb_eq in Ew. subst w. auto. }
    split; [|split; [|split]].
    + intros x0. rewrite (tev_sum s ND t _ _ x0 C (normalized_tops_one t N)). apply sum_over_ext'. intros y. unfold masked. rewrite AG. destruct (y v); reflexivity.
    + intros x0. rewrite (tev_sum s ND t _ _ x0 C (normalized_tops_one t N)). apply sum_over_ext'. intros y. unfold masked. rewrite AG. destruct (y v); reflexivity.
    + destruct (evaluate_spec val HP _ _ HO i L SO (only v) (fun _ => true) t HR) as (e & Ee & Ev). exists e. unfold Evaluate. rewrite EL. auto.
    + destruct (evaluate_spec val HP _ _ HO i L SO (only v) (fun _ => false) t HR) as (e & Ee & Ev). exists e. unfold Evaluate. rewrite EL. auto.
  - intros v Hv. destruct (K v) as [_ NN].
    assert (mg v = None) as ->; auto. apply NN. intros j nd Hj Ej. apply (so_in _ _ _ SO) in Hj. destruct (reach_vt _ _ _ _ HO Hj p V) as [u Hu].
    unfold vt_of in Hu. rewrite Ej in Hu. injection Hu as Hu. pose proof (HO _ _ Ej) as NO. unfold node_ok in NO. rewrite Hu in NO.
    destruct (n_body nd) as [l|w pt pf|]; auto; intros <-; apply Hv; apply (subtree_leaves _ _ _ _ _ S NO); left; reflexivity.
Qed.
End Final.

Section FinalExact.
Context {P : pops} (val : P -> R) (HP : pexact P val).
Notation Rep := (Rep val).
Lemma mpe_full m i s t L ud fuel : psdd_at val m i s t -> nonneg t -> deterministic t -> SerializePsddNodes (m_heap m) [i] = Ok L -> (vsize s <= fuel)%nat ->
  exists x v ud', GetMPESolution fuel (m_heap m) L ud = Ok (x, v, ud') /\
    weight t x = val v /\ base t x = true /\ (forall y, weight t y <= val v) /\ (forall w, x w = true -> In w (leaves s)) /\
    (forall j, In j L -> ud' j = None) /\ (forall j, ~ In j L -> ud' j = ud j).
Proof.
  intros A NN D EL HF. destruct (psdd_at_facts val _ _ _ _ A) as (HO & ND & C & L' & SO). pose proof (so_eq _ _ _ SO) as Q. rewrite EL in Q. injection Q as <-.
  destruct A as (_ & HR & _). destruct (mpe_spec val HP _ _ HO i L SO ud t s fuel HR C NN HF) as (x & v & ud' & E & Hx & Hv & U1 & U2).
  exists x, v, ud'. split; auto. destruct (tmpe_attained s ND t C NN D) as [B W].
  assert (agree_on (leaves s) x (tbits t)) as AG by (intros w _; auto).
  split; [rewrite Hv, <- W; apply (weight_depends s t C); auto|]. split; [rewrite <- B; apply (base_depends s t C); auto|].
  split; [intros y; rewrite Hv; apply (tmpe_optimal s); auto|]. split; [|auto]. intros w Hw. rewrite Hx in Hw. eapply tbits_in; eauto.
Qed.
Lemma sample_full m i s t fuel us : psdd_at val m i s t -> nonneg t -> normalized t -> (i < fuel)%nat -> (vsize s <= length us)%nat -> (forall u, In u us -> val u < 1) ->
  exists x us', DirectSample fuel (m_heap m) i (fun _ => false) us = Ok (x, us') /\ 
    sampled t (map val us) (map val us') x /\ 0 < weight t x /\ (forall v, x v = true -> In v (leaves s)) /\ (exists d, us = d ++ us').
Proof.
  intros A NN N Hf HU U. destruct (psdd_at_facts val _ _ _ _ A) as (HO & ND & C & L & SO). destruct A as (_ & HR & _).
  destruct (sample_spec val HP (m_heap m) s t i fuel (fun _ => false) us (ex_intro (fun r => heap_ok r (m_heap m)) _ HO) HR C N Hf HU U) as (x & us' & y & E & S & X & _ & D).
  assert (x = y) as ->. { apply functional_extensionality. intros v. rewrite X. reflexivity. }
  exists y, us'. split; auto. split; auto. split; [|split; auto].
  - eapply sampled_pos; eauto. intros u Hu. apply in_map_iff in Hu as (u' & <- & Hu). split; [apply (val_nonneg HP)|auto].
  - eapply sampled_in; eauto.
Qed.
End FinalExact.
