(** Creating nodes when the parameters are compared up to a factor (C55). *)
From Coq Require Import Reals Lra.
From Verif Require Import Base Param ParamProofs Vtree VtreeProofs Spec SpecProofs Heap Manager HeapProofs SerProofs RepProofs LoadProofs
  MulProofs TreeProofs.
Local Open Scope R_scope.
Notation telem := (ptree * ptree * R)%type.

(** ** Trees of the same shape with parameters equal up to a factor *)
Definition close (d a b : R) : Prop := b <= exp d * a /\ a <= exp d * b.
Fixpoint near (d : R) (t t' : ptree) {struct t} : Prop :=
  match t, t' with
  | TLit l, TLit l' => l = l'
  | TTop v a b, TTop v' a' b' => v = v' /\ close d a a' /\ Rabs (b - b') <= Rabs (a - a') /\ (0 < b -> 0 < b')
  | TDec es, TDec es' =>
      (fix go l l' := match l, l' with
        | [], [] => True
        | e :: l0, e' :: l0' => near d (fst (fst e)) (fst (fst e')) /\ near d (snd (fst e)) (snd (fst e')) /\ close d (snd e) (snd e') /\ go l0 l0'
        | _, _ => False
        end) es es'
  | _, _ => False
  end.
Definition enear (d : R) (e e' : telem) : Prop := near d (tp e) (tp e') /\ near d (ts e) (ts e') /\ close d (tw e) (tw e').
Lemma near_dec d es es' : near d (TDec es) (TDec es') <-> Forall2 (enear d) es es'.
Proof.
  revert es'. induction es as [|e es IH]; intros [|e' es']; simpl; split; intros H; try contradiction; auto; try (inversion H; fail).
  - destruct H as (A & B & C & D). constructor; [split; auto|]. apply IH. exact D.
  - inversion H as [|? ? ? ? (A & B & C) F]; subst. repeat (split; auto). apply IH. exact F.
Qed.
Lemma near_dec_inv d es t' : near d (TDec es) t' -> exists es', t' = TDec es' /\ Forall2 (enear d) es es'.
Proof. destruct t' as [| |es']; try contradiction. intros H. exists es'. split; auto. apply near_dec. exact H. Qed.
Lemma close_refl d a : 0 <= d -> 0 <= a -> close d a a.
Proof. intros H1 H2. pose proof (exp_ineq1_le d). split; nra. Qed.
Lemma close_diff d a b : 0 <= d -> 0 <= a -> close d a b -> Rabs (a - b) <= (exp d - 1) * a.
Proof.
  intros D A [H1 H2]. pose proof (exp_ineq1_le d) as E. apply Rabs_le. split; [lra|].
  assert (a * (2 - exp d) <= b); [|lra].
  assert (a * (2 - exp d) * exp d <= a). { assert ((2 - exp d) * exp d <= 1) by nra. nra. }
  assert (exp d > 0) by apply exp_pos. nra.
Qed.
Lemma near_base d t : forall t' x, near d t t' -> base t' x = base t x.
Proof.
  induction t as [l|v a b|es IH] using ptree_ind2; intros t' x H.
  - destruct t'; simpl in H; try contradiction. subst. auto.
  - destruct t'; simpl in H; try contradiction. auto.
  - apply near_dec_inv in H as (es' & -> & F). rewrite !base_dec. induction F as [|e e' es es' (A & B & _) F IHF]; auto.
    inversion IH as [|? ? [I1 I2] I3]; subst. simpl. rewrite IHF, (I1 _ x A), (I2 _ x B); auto.
Qed.
Lemma near_conforms d t : forall s t', near d t t' -> conforms s t' -> conforms s t.
Proof.
  induction t as [l|v a b|es IH] using ptree_ind2; intros s t' H C.
  - destruct t'; simpl in H; try contradiction. subst. auto.
  - destruct t'; simpl in H; try contradiction. destruct H as (-> & _). destruct s; simpl in *; auto.
  - apply near_dec_inv in H as (es' & -> & F). destruct s as [v|sl sr]; [simpl in C; contradiction|]. apply conforms_dec in C as [NE C].
    apply conforms_dec. split; [intros ->; inversion F; subst; congruence|].
    clear NE. induction F as [|e e' es es' (A & B & _) F IHF]; auto. inversion IH as [|? ? [I1 I2] I3]; inversion C as [|? ? [C1 C2] C3]; subst.
    constructor; eauto.
Qed.

Lemma near_conforms_r d t : forall s t', near d t t' -> conforms s t -> conforms s t'.
Proof.
  induction t as [l|v a b|es IH] using ptree_ind2; intros s t' H C.
  - destruct t'; simpl in H; try contradiction. subst. auto.
  - destruct t'; simpl in H; try contradiction. destruct H as (<- & _). destruct s; simpl in *; auto.
  - apply near_dec_inv in H as (es' & -> & F). destruct s as [v|sl sr]; [simpl in C; contradiction|]. apply conforms_dec in C as [NE C].
    apply conforms_dec. split; [intros ->; inversion F; subst; congruence|].
    clear NE. induction F as [|e e' es es' (A & B & _) F IHF]; auto. inversion IH as [|? ? [I1 I2] I3]; inversion C as [|? ? [C1 C2] C3]; subst.
    constructor; eauto.
Qed.

Lemma close_pos d a b : close d a b -> 0 < a -> 0 < b.
Proof. intros [_ H] A. pose proof (exp_pos d). destruct (Rle_lt_dec b 0); [|auto]. nra. Qed.
Lemma near_positive d t : forall t', near d t t' -> positive t -> positive t'.
Proof.
  unfold positive. induction t as [l|v a b|es IH] using ptree_ind2; intros t' H N.
  - destruct t'; simpl in H; try contradiction. simpl. auto.
  - destruct t'; simpl in H; try contradiction. destruct H as (_ & H1 & _ & H2). simpl in *. destruct N as [[N1 N2] _]. split; auto. split; auto. eapply close_pos; eauto.
  - apply near_dec_inv in H as (es' & -> & F). apply all_nodes_dec in N as [N1 N2]. apply all_nodes_dec.
    induction F as [|e e' es es' (A & B & C) F IHF]; auto. inversion IH as [|? ? [I1 I2] I3]; inversion N1; inversion N2 as [|? ? [M1 M2] M3]; subst.
    destruct IHF as [J1 J2]; auto. split; constructor; auto. eapply close_pos; eauto.
Qed.
Lemma near_deterministic d t : forall t', near d t t' -> deterministic t -> deterministic t'.
Proof.
  unfold deterministic. induction t as [l|v a b|es IH] using ptree_ind2; intros t' H N.
  - destruct t'; simpl in H; try contradiction. simpl. auto.
  - destruct t'; simpl in H; try contradiction. simpl. auto.
  - apply near_dec_inv in H as (es' & -> & F). apply all_nodes_dec in N as [N1 N2]. apply all_nodes_dec.
    induction F as [|e e' es es' (A & B & C) F IHF]; [split; constructor|]. inversion IH as [|? ? [I1 I2] I3]; inversion N1 as [|? ? O1 O2]; inversion N2 as [|? ? [M1 M2] M3]; subst.
    destruct IHF as [J1 J2]; auto. split; constructor; auto.
    clear - F O1 A. induction F as [|f f' es es' (A' & _ & _) F IHF]; auto. inversion O1; subst. constructor; auto. intros x. rewrite (near_base d _ _ x A), (near_base d _ _ x A'). auto.
Qed.

(** ** Total variation between a normalized tree and a near one *)
Definition tv (vs : list N) (f g : inst -> R) (x0 : inst) : R := sum_over vs (fun x => Rabs (f x - g x)) x0.
Lemma near_tv d (D : 0 <= d) s : NoDup (leaves s) -> forall t t' x0, conforms s t -> near d t t' -> normalized t -> nonneg t -> nonneg t' ->
  tv (leaves s) (weight t) (weight t') x0 <= exp (INR (2 * vsize s) * d) - 1.
Proof.
  pose proof (exp_ineq1_le d) as E1.
  induction s as [v|sl IHl sr IHr]; intros ND t t' x0 C NR N NN NN'.
  - assert (exp (INR (2 * vsize (Leaf v)) * d) = exp d * exp d) as ->. { rewrite <- exp_plus. f_equal. simpl. ring. }
    destruct t as [l|w a b|es]; simpl in C; try contradiction; subst; destruct t' as [l'|w' a' b'|es']; simpl in NR; try contradiction.
    + subst l'. unfold tv. simpl. rewrite !Rminus_eq_0, !Rabs_R0. nra.
    + destruct NR as (<- & CL & B & _). pose proof (all_nodes_root _ _ N) as NB. pose proof (all_nodes_root _ _ NN) as NA. simpl in NA, NB.
      pose proof (close_diff d a a' D (proj1 NA) CL) as CD. unfold tv. simpl. rewrite !upd_same. simpl.
      assert ((exp d - 1) * a <= exp d - 1) by nra. nra.
  - assert (exp (INR (2 * vsize (VNode sl sr)) * d) = exp (INR (2 * vsize sl) * d) * exp (INR (2 * vsize sr) * d) * (exp d * exp d)) as ->.
    { rewrite <- !exp_plus. f_equal. cbn [vsize]. rewrite !mult_INR, !plus_INR. simpl. ring. }
    destruct t as [l|w a b|es]; try contradiction. apply near_dec_inv in NR as (es' & -> & F). apply conforms_dec in C as [NE C].
    simpl in ND. destruct (leaves_disjoint sl sr ND) as (NDl & NDr & DJ).
    apply all_nodes_dec in N as [N1 N2], NN as [A1 A2], NN' as [B1 B2].
    set (Kl := exp (INR (2 * vsize sl) * d)) in *. set (Kr := exp (INR (2 * vsize sr) * d)) in *.
    assert (forall n, 1 <= exp (INR n * d)) as KG.
    { intros n. pose proof (exp_ineq1_le (INR n * d)). pose proof (pos_INR n). nra. }
    assert (1 <= Kl) as GKl by apply KG. assert (1 <= Kr) as GKr by apply KG.
    assert (forall x, Rabs (weight (TDec es) x - weight (TDec es') x) <=
      rsum (fun ee => Rabs (weight (tp (fst ee)) x - weight (tp (snd ee)) x) * (weight (ts (fst ee)) x * tw (fst ee)) +
                      (weight (tp (snd ee)) x * (Rabs (weight (ts (fst ee)) x - weight (ts (snd ee)) x) * tw (fst ee)) +
                      weight (tp (snd ee)) x * (weight (ts (snd ee)) x * ((exp d - 1) * tw (fst ee))))) (combine es es')) as PW.
    { intros x. rewrite !weight_dec. clear - F A1 A2 B1 B2 D. induction F as [|e e' es es' (Np & Ns & Nw) F IH]; simpl.
      - rewrite Rminus_eq_0, Rabs_R0. lra.
      - inversion A1 as [|? ? W0 A1']; inversion A2 as [|? ? [P0 S0] A2']; inversion B1 as [|? ? W0' B1']; inversion B2 as [|? ? [P0' S0'] B2']; subst.
        specialize (IH A1' A2' B1' B2').
        pose proof (close_diff d _ _ D W0 Nw) as CD.
        pose proof (weight_nonneg _ x P0). pose proof (weight_nonneg _ x S0). pose proof (weight_nonneg _ x P0'). pose proof (weight_nonneg _ x S0').
        set (p := weight (tp e) x) in *. set (q := weight (ts e) x) in *. set (p' := weight (tp e') x) in *. set (q' := weight (ts e') x) in *.
        set (w := tw e) in *. set (w' := tw e') in *.
        match goal with |- Rabs (?a + ?b - (?c + ?f)) <= _ => replace (a + b - (c + f)) with ((a - c) + (b - f)) by ring end.
        eapply Rle_trans; [apply Rabs_triang|]. apply Rplus_le_compat; [|exact IH].
        replace (p * q * w - p' * q' * w') with ((p - p') * (q * w) + (p' * ((q - q') * w) + p' * (q' * (w - w')))) by ring.
        eapply Rle_trans; [apply Rabs_triang|]. apply Rplus_le_compat.
        { rewrite Rabs_mult. apply Rmult_le_compat_l; [apply Rabs_pos|]. rewrite Rabs_pos_eq; [lra|]. apply Rmult_le_pos; auto. }
        eapply Rle_trans; [apply Rabs_triang|]. apply Rplus_le_compat.
        + rewrite Rabs_mult, (Rabs_pos_eq p') by auto. apply Rmult_le_compat_l; auto. rewrite Rabs_mult, (Rabs_pos_eq w) by auto. lra.
        + rewrite Rabs_mult, (Rabs_pos_eq p') by auto. apply Rmult_le_compat_l; auto. rewrite Rabs_mult, (Rabs_pos_eq q') by auto. apply Rmult_le_compat_l; auto. }
    unfold tv. eapply Rle_trans; [apply sum_over_le; exact PW|]. rewrite sum_over_rsum. simpl leaves.
    apply Rle_trans with (rsum (fun ee : telem * telem => tw (fst ee) * (Kl * Kr * exp d - 1)) (combine es es')).
    + apply rsum_le. intros [e e'] He.
      assert (In e es) as Ie by (eapply in_combine_l; eauto). assert (In e' es') as Ie' by (eapply in_combine_r; eauto).
      assert (enear d e e') as (Np & Ns & Nw).
      { clear - F He. induction F as [|a b es es' R F IH]; [contradiction|]. destruct He as [E|He]; [injection E as -> ->; auto|auto]. }
      rewrite Forall_forall in C, N2, A1, A2, B1, B2. destruct (C e Ie) as [C1 C2], (N2 e Ie) as [M1 M2], (A2 e Ie) as [P1 P2], (B2 e' Ie') as [Q1 Q2].
      pose proof (A1 e Ie) as W0. pose proof (IHl NDl _ _ x0 C1 Np M1 P1 Q1) as Tl. pose proof (IHr NDr _ _ x0 C2 Ns M2 P2 Q2) as Tr. fold Kl in Tl. fold Kr in Tr.
      pose proof (near_conforms_r d _ _ _ Np C1) as C1'. pose proof (near_conforms_r d _ _ _ Ns C2) as C2'.
      cbn [fst snd]. rewrite !sum_over_plus.
      set (Dl := tv (leaves sl) (weight (tp e)) (weight (tp e')) x0) in *. set (Dr := tv (leaves sr) (weight (ts e)) (weight (ts e')) x0) in *.
      assert (0 <= Dl) by (apply sum_over_nonneg; intros; apply Rabs_pos). assert (0 <= Dr) by (apply sum_over_nonneg; intros; apply Rabs_pos).
      pose proof (normalized_total sl (tp e) x0 NDl C1 M1) as Sp. pose proof (normalized_total sr (ts e) x0 NDr C2 M2) as Sq.
      assert (sum_over (leaves sl) (weight (tp e')) x0 <= 1 + Dl) as Sp'.
      { rewrite <- Sp. unfold Dl, tv. rewrite <- sum_over_plus. apply sum_over_le. intros y. pose proof (Rle_abs (weight (tp e') y - weight (tp e) y)) as RA. rewrite Rabs_minus_sym in RA. lra. }
      assert (sum_over (leaves sr) (weight (ts e')) x0 <= 1 + Dr) as Sq'.
      { rewrite <- Sq. unfold Dr, tv. rewrite <- sum_over_plus. apply sum_over_le. intros y. pose proof (Rle_abs (weight (ts e') y - weight (ts e) y)) as RA. rewrite Rabs_minus_sym in RA. lra. }
      assert (0 <= sum_over (leaves sl) (weight (tp e')) x0) as Sp0 by (apply sum_over_nonneg; intros; apply weight_nonneg; auto).
      assert (0 <= sum_over (leaves sr) (weight (ts e')) x0) as Sq0 by (apply sum_over_nonneg; intros; apply weight_nonneg; auto).
      assert (depends_on (leaves sl) (weight (tp e))) as Dp by (intros y z A; apply (weight_depends sl _ C1); auto).
      assert (depends_on (leaves sr) (weight (ts e))) as Dq by (intros y z A; apply (weight_depends sr _ C2); auto).
      assert (depends_on (leaves sl) (weight (tp e'))) as Dp' by (intros y z A; apply (weight_depends sl _ C1'); auto).
      assert (depends_on (leaves sr) (weight (ts e'))) as Dq' by (intros y z A; apply (weight_depends sr _ C2'); auto).
      rewrite (sum_over_factor (leaves sl) (leaves sr) (fun y => Rabs (weight (tp e) y - weight (tp e') y)) (fun y => weight (ts e) y * tw e)); auto.
      2:{ intros y z A. rewrite (Dp y z A), (Dp' y z A). reflexivity. } 2:{ intros y z A. rewrite (Dq y z A). reflexivity. }
      rewrite (sum_over_factor (leaves sl) (leaves sr) (weight (tp e')) (fun y => Rabs (weight (ts e) y - weight (ts e') y) * tw e)); auto.
      2:{ intros y z A. rewrite (Dq y z A), (Dq' y z A). reflexivity. }
      rewrite (sum_over_factor (leaves sl) (leaves sr) (weight (tp e')) (fun y => weight (ts e') y * ((exp d - 1) * tw e))); auto.
      2:{ intros y z A. rewrite (Dq' y z A). reflexivity. }
      fold (tv (leaves sl) (weight (tp e)) (weight (tp e')) x0). fold Dl.
      assert (forall f c, sum_over (leaves sr) (fun y => f y * c) x0 = sum_over (leaves sr) f x0 * c) as SR.
      { intros f c. rewrite (Rmult_comm _ c), <- sum_over_scal. apply sum_over_ext'. intros; ring. }
      rewrite !SR. fold (tv (leaves sr) (weight (ts e)) (weight (ts e')) x0). fold Dr. rewrite Sq.
      set (a := sum_over (leaves sl) (weight (tp e')) x0) in *. set (b := sum_over (leaves sr) (weight (ts e')) x0) in *. set (w := tw e) in *.
      assert (a * (Dr * w) <= (1 + Dl) * Dr * w). { rewrite <- Rmult_assoc. apply Rmult_le_compat_r; auto. apply Rmult_le_compat_r; auto. }
      assert (a * b <= (1 + Dl) * (1 + Dr)) as AB by (apply Rmult_le_compat; auto).
      assert (a * (b * ((exp d - 1) * w)) <= (1 + Dl) * (1 + Dr) * ((exp d - 1) * w)).
      { rewrite <- Rmult_assoc. apply Rmult_le_compat_r; auto. apply Rmult_le_pos; lra. }
      assert ((1 + Dl) * (1 + Dr) <= Kl * Kr) as KK by (apply Rmult_le_compat; lra).
      apply Rle_trans with (w * ((1 + Dl) * (1 + Dr) * exp d - 1)); [lra|]. apply Rmult_le_compat_l; auto.
      assert ((1 + Dl) * (1 + Dr) * exp d <= Kl * Kr * exp d) by (apply Rmult_le_compat_r; lra). lra.
    + rewrite rsum_scal_r.
      assert (rsum (fun ee : telem * telem => tw (fst ee)) (combine es es') = rsum tw es) as ->.
      { clear - F. induction F as [|e e' es es' R F IH]; simpl; auto. rewrite IH. reflexivity. }
      rewrite N1. assert (0 <= Kl * Kr) by nra. assert (Kl * Kr * exp d <= Kl * Kr * (exp d * exp d)) by (apply Rmult_le_compat_l; nra). lra.
Qed.

(** ** Creation *)
Section Create.
Context {P : pops} (val : P -> R) (d : R) (HP : papprox P val d).
Notation mgr := (mgr P). Notation node := (node P). Notation node_at := (node_at val).
Lemma peq_close a b : peq a b = true -> close d (val a) (val b).
Proof. intros H. split; [apply (approx_close HP); auto|]. apply (approx_close HP). rewrite (approx_sym HP). auto. Qed.
Definition elem_sim (e e' : elem P) := e_prime e = e_prime e' /\ e_sub e = e_sub e' /\ close d (val (e_param e)) (val (e_param e')).
Definition body_close (b b' : body P) : Prop :=
  match b, b' with
  | BLit l, BLit l' => l = l'
  | BTop v pt _, BTop v' pt' _ => v = v' /\ close d (val pt) (val pt')
  | BDec es, BDec es' => Forall2 elem_sim es es'
  | _, _ => False
  end.
Lemma elems_equiv_close (l1 : list (elem P)) : forall l2, elems_less l1 l2 = false -> elems_less l2 l1 = false -> Forall2 elem_sim l1 l2.
Proof.
  induction l1 as [|e l1 IH]; intros [|e' l2] H1 H2; simpl in *; try discriminate; auto.
  rewrite (Nat.eqb_sym (e_prime e') (e_prime e)), (Nat.eqb_sym (e_sub e') (e_sub e)), (approx_sym HP (e_param e') (e_param e)) in H2.
  destruct (Nat.eqb (e_prime e) (e_prime e')) eqn:E1; simpl in *.
  - destruct (Nat.eqb (e_sub e) (e_sub e')) eqn:E2; simpl in *.
    + destruct (peq (e_param e) (e_param e')) eqn:E3; simpl in *.
      * constructor; auto. apply Nat.eqb_eq in E1, E2. split; auto. split; auto. apply peq_close. auto.
      * exfalso. pose proof (approx_tri HP _ _ H1 H2). congruence.
    + apply Nat.eqb_neq in E2. apply Nat.ltb_ge in H1, H2. lia.
  - apply Nat.eqb_neq in E1. apply Nat.ltb_ge in H1, H2. lia.
Qed.
Lemma equiv_close (a b : node) : equiv a b = true -> body_close (n_body a) (n_body b).
Proof.
  intros H. pose proof (equiv_flag a b H) as F. unfold equiv, node_less in H.
  rewrite F, !N.eqb_refl in H. simpl in H. apply andb_true_iff in H as [H1 H2]. apply negb_true_iff in H1, H2.
  destruct (n_body a) as [la|va ta fa|ea], (n_body b) as [lb|vb tb fb|eb]; try discriminate; simpl.
  - apply Z.ltb_ge in H1, H2. lia.
  - rewrite (N.eqb_sym vb va) in H2. destruct (N.eqb va vb) eqn:E; simpl in *.
    + apply N.eqb_eq in E. split; auto. apply peq_close. apply (approx_tri HP); auto.
    + apply N.eqb_neq in E. apply N.ltb_ge in H1, H2. lia.
  - apply elems_equiv_close; auto.
Qed.
(** the node found or made stands for a tree near the requested one *)
Definition near_at (m : mgr) (i : nat) (p : path) (t : ptree) : Prop := exists t', node_at m i p t' /\ near d t t'.
Lemma near_at_ext fl m m' i p t : mext fl m m' -> near_at m i p t -> near_at m' i p t.
Proof. intros X (t' & A & B). exists t'. split; auto. eapply node_at_ext; eauto. Qed.
Lemma near_at_conforms m i p t : Wf m -> near_at m i p t -> exists s, subtree (m_vt m) p = Some s /\ conforms s t.
Proof. intros W (t' & A & B). destruct (node_at_conforms val m i p t' W A) as (s & S & C). exists s. split; auto. eapply near_conforms; eauto. Qed.

(** [T]: which pairs of parameters top nodes have; close true parameters must force close false parameters. *)
Context (T : N -> R -> R -> Prop).
Context (Tnear : forall v a b a' b', T v a b -> T v a' b' -> close d a a' -> Rabs (b - b') <= Rabs (a - a') /\ (0 < b -> 0 < b')).
Notation InvT := (InvT val T). Notation tops_in := (tops_in val T).
Lemma intern_near fl m nd i m' : InvT fl m -> n_flag nd = fl -> body_in val T (n_body nd) ->
  node_ok (m_vt m) (m_heap m) (length (m_heap m)) nd -> GetUniqueNode m nd = (i, m') ->
  InvT fl m' /\ mext fl m m' /\ In i (m_live m') /\
  exists nd', nth_error (m_heap m') i = Some nd' /\ n_vt nd' = n_vt nd /\ n_flag nd' = fl /\ body_close (n_body nd) (n_body nd') /\ body_in val T (n_body nd').
Proof.
  intros [W T0] Ef BO NO E.
  destruct (unique_wf (approx_refl HP) (approx_irrefl HP) m nd i m' W NO E) as (W' & X & L & _ & nd' & E1 & V & F & S & Q).
  rewrite Ef in *.
  assert (tops_in m' fl) as T1.
  { destruct (unique_spec (approx_refl HP) (approx_irrefl HP) m nd i m' W NO E) as (_ & _ & _ & _ & [[-> _]|(Ei & Eh & El)]); auto.
    intros j ndj v pt pf Hj Ej Efj Ebj. rewrite El in Hj. rewrite Eh in Ej.
    apply in_app_iff in Hj as [Hj|[<-|[]]].
    - rewrite nth_error_app1 in Ej by (apply (wf_range _ W); auto). eapply T0; eauto.
    - rewrite Ei, nth_error_app2, Nat.sub_diag in Ej by lia. injection Ej as <-. rewrite Ebj in BO. exact BO. }
  split; [split; auto|]. split; auto. split; auto. exists nd'. repeat split; auto; [apply equiv_close; auto|].
  unfold body_in. destruct (n_body nd') as [|v pt pf|] eqn:Eb; auto. exact (T1 i nd' v pt pf L E1 F Eb).
Qed.
Lemma literal_near fl m l p : InvT fl m -> subtree (m_vt m) p = Some (Leaf (lit_var l)) ->
  exists i m', GetPsddLiteralNode m l fl = Ok (i, m') /\ InvT fl m' /\ mext fl m m' /\ In i (m_live m') /\
    near_at m' i p (TLit l) /\ flag_of (m_heap m') i = Some fl.
Proof.
  intros I S. unfold GetPsddLiteralNode. pose proof (leaf_path_unique _ _ _ (wf_leaves _ (proj1 I)) S) as E.
  unfold lit_var in E. rewrite E.
  destruct (GetUniqueNode m (MkN p fl (BLit l))) as [i m'] eqn:EU. exists i, m'. split; auto.
  assert (NO : node_ok (m_vt m) (m_heap m) (length (m_heap m)) (MkN p fl (BLit l))) by exact S.
  destruct (intern_near fl m (MkN p fl (BLit l)) i m' I eq_refl Logic.I NO EU) as (I' & X & L & nd' & E1 & V & F & B & _).
  simpl in B, V. destruct (n_body nd') as [l'| |] eqn:Eb; try contradiction. subst l'.
  split; auto. split; auto. split; auto. split; [exists (TLit l); split; [split|simpl; auto]|].
  - unfold vt_of. rewrite E1. simpl. congruence.
  - econstructor; eauto.
  - unfold flag_of. rewrite E1. simpl. congruence.
Qed.
Lemma top_near fl m v pt pf p : InvT fl m -> subtree (m_vt m) p = Some (Leaf v) -> T v (val pt) (val pf) ->
  exists i m' nd pt' pf', GetPsddTopNode m v fl pt pf = Ok (i, m') /\ InvT fl m' /\ mext fl m m' /\ In i (m_live m') /\
    near_at m' i p (TTop v (val pt) (val pf)) /\ flag_of (m_heap m') i = Some fl /\
    nth_error (m_heap m') i = Some nd /\ n_body nd = BTop v pt' pf' /\ T v (val pt') (val pf').
Proof.
  intros I S TO. unfold GetPsddTopNode. pose proof (leaf_path_unique _ _ _ (wf_leaves _ (proj1 I)) S) as E.
  rewrite E.
  destruct (GetUniqueNode m (MkN p fl (BTop v pt pf))) as [i m'] eqn:EU.
  assert (NO : node_ok (m_vt m) (m_heap m) (length (m_heap m)) (MkN p fl (BTop v pt pf))) by exact S.
  destruct (intern_near fl m (MkN p fl (BTop v pt pf)) i m' I eq_refl TO NO EU) as (I' & X & L & nd' & E1 & V & F & B & TN).
  simpl in B, V. destruct (n_body nd') as [|v' pt' pf'|] eqn:Eb; try contradiction. destruct B as (<- & B1). simpl in TN.
  exists i, m', nd', pt', pf'. split; auto. split; auto. split; auto. split; auto. split; [|split].
  - exists (TTop v (val pt') (val pf')). split; [split|].
    + unfold vt_of. rewrite E1. simpl. congruence.
    + econstructor; eauto.
    + simpl. split; auto. split; auto. eapply Tnear; eauto.
  - unfold flag_of. rewrite E1. simpl. congruence.
  - auto.
Qed.
Lemma Forall2_elem_sim h es es' : Forall2 elem_sim es es' -> forall tes tes', Forall2 (ElemRep val h) es tes' -> Forall2 (enear d) tes tes' ->
  (Forall2 (fun e te => tw te = val (e_param e)) es tes) ->
  exists tes2, Forall2 (ElemRep val h) es' tes2 /\ Forall2 (enear d) tes tes2.
Proof.
  induction 1 as [|e e' es es' (A & B & C) F IH]; intros tes tes' H1 H2 H3; inversion H1 as [|? te' ? tes0' (R1 & R2 & R3) H1']; subst; inversion H2 as [|te ? tes0 ? (N1 & N2 & N3) H2']; subst; inversion H3; subst.
  - exists []. auto.
  - destruct (IH tes0 tes0') as (tes2 & G1 & G2); auto. exists ((tp te', ts te', val (e_param e')) :: tes2). split; constructor; auto.
    + unfold ElemRep. rewrite <- A, <- B. unfold tp, ts, tw; simpl. auto.
    + split; [exact N1|]. split; [exact N2|]. unfold tw at 2; simpl. match goal with H : tw te = _ |- _ => rewrite H end. exact C.
Qed.
Definition elem_near (m : mgr) (p : path) (e : elem P) (te : telem) : Prop :=
  near_at m (e_prime e) (false :: p) (tp te) /\ near_at m (e_sub e) (true :: p) (ts te) /\ tw te = val (e_param e).
Lemma new_dec_near fl m vt es tes : InvT fl m -> (exists l r, subtree (m_vt m) vt = Some (VNode l r)) -> es <> [] -> Forall2 (elem_near m vt) es tes ->
  exists i m' tes', new_dec m vt fl (map e_prime es) (map e_sub es) (map e_param es) = Ok (i, m') /\
    InvT fl m' /\ mext fl m m' /\ In i (m_live m') /\ Permutation tes tes' /\
    near_at m' i vt (TDec tes') /\ flag_of (m_heap m') i = Some fl.
Proof.
  intros I HV NE FE. unfold new_dec.
  assert (mk_elems (map e_param es) 0 (map e_prime es) (map e_sub es) = Ok es) as EM.
  { apply (mk_elems_ok es []). destruct es; [congruence|discriminate]. }
  rewrite EM. cbn [bind].
  destruct (GetUniqueNode m (MkN vt fl (BDec (sort_elems es)))) as [i m'] eqn:EU.
  pose proof (Permutation_sym (sort_elems_perm es)) as PS.
  assert (NO : node_ok (m_vt m) (m_heap m) (length (m_heap m)) (MkN vt fl (BDec (sort_elems es)))).
  { simpl. split; [|split; auto].
    - intros Z. apply NE. rewrite Z in PS. apply Permutation_sym, Permutation_nil in PS. auto.
    - apply Forall_forall. intros e He. apply (Permutation_in _ (Permutation_sym PS)) in He.
      destruct (Forall2_in_l _ _ _ _ FE He) as (te & _ & (t1 & [A _] & _) & (t2 & [B _] & _) & _). repeat split; auto; eapply vt_of_lt; eauto. }
  destruct (intern_near fl m (MkN vt fl (BDec (sort_elems es))) i m' I eq_refl Logic.I NO EU) as (I' & X & L & nd' & E1 & V & F & B & _).
  simpl in B, V. destruct (n_body nd') as [| |es'] eqn:Eb; try contradiction.
  destruct (Forall2_perm _ _ _ PS _ FE) as (tes' & PT & FR').
  assert (exists tes1, Forall2 (ElemRep val (m_heap m')) (sort_elems es) tes1 /\ Forall2 (enear d) tes' tes1) as (tes1 & G1 & G2).
  { clear - FR' X HP. induction FR' as [|e te l l' (A & B & C) FR IH]; [exists []; auto|]. destruct IH as (tes1 & G1 & G2).
    destruct A as (t1 & A1 & A2), B as (t2 & B1 & B2). exists ((t1, t2, val (e_param e)) :: tes1). split; constructor; auto.
    - split; [|split; [|reflexivity]]; unfold tp, ts; simpl; eapply Rep_mext; eauto; [apply A1|apply B1].
    - split; [exact A2|]. split; [exact B2|]. rewrite C. unfold tw; simpl. apply close_refl; [apply (approx_pos HP)|apply (val_nonneg HP)]. }
  destruct (Forall2_elem_sim (m_heap m') _ _ B tes' tes1 G1 G2) as (tes2 & K1 & K2).
  { clear - FR'. induction FR' as [|e te l l' (_ & _ & C) FR IH]; constructor; auto. }
  exists i, m', tes'. split; auto. split; auto. split; auto. split; auto. split; auto. split; [exists (TDec tes2); split; [split|]|].
  - unfold vt_of. rewrite E1. simpl. congruence.
  - eapply Rep_dec; eauto.
  - apply near_dec. exact K2.
  - unfold flag_of. rewrite E1. simpl. congruence.
Qed.
(** GetConformedPsddDecisionNode on nodes of the children *)
Lemma conform_near gt p fl tm m : forall es tes, Forall2 (elem_near m p) es tes ->
  conform_loop gt (@Some path (false :: p)) (@Some path (true :: p)) fl (map e_prime es) (map e_sub es) tm m = Ok (map e_prime es, map e_sub es, m).
Proof.
  intros es tes F. induction F as [|e te es tes ((t1 & A & _) & (t2 & B & _) & _) F IH]; [reflexivity|].
  cbn [map conform_loop]. rewrite (normalize_here val gt (false :: p) fl (e_prime e) tm m t1 A). cbn [bind].
  rewrite (normalize_here val gt (true :: p) fl (e_sub e) tm m t2 B). cbn [bind]. rewrite IH. reflexivity.
Qed.
Lemma conformed_near fl m p l r es tes : InvT fl m -> subtree (m_vt m) p = Some (VNode l r) -> es <> [] -> Forall2 (elem_near m p) es tes ->
  exists i m' tes', GetConformedPsddDecisionNode m (map e_prime es) (map e_sub es) (map e_param es) fl = Ok (i, m') /\
    InvT fl m' /\ mext fl m m' /\ In i (m_live m') /\ Permutation tes tes' /\ near_at m' i p (TDec tes') /\ flag_of (m_heap m') i = Some fl.
Proof.
  intros I HV NE F.
  destruct (new_dec_near fl m p es tes I (ex_intro _ l (ex_intro _ r HV)) NE F) as (i & m' & tes' & E & R).
  exists i, m', tes'. split; [|exact R]. unfold GetConformedPsddDecisionNode, conformed_with.
  destruct F as [|e te es tes ((t1 & A & N1) & (t2 & B & N2) & W) F]; [congruence|]. cbn [map hd_error get bind].
  rewrite (proj1 A), (proj1 B). cbn [get bind].
  assert (vlca (false :: p) (true :: p) = p) as -> by exact (vlca_split [] [] p).
  rewrite !(vkid_node _ _ _ _ _ HV).
  change (e_prime e :: map e_prime es) with (map e_prime (e :: es)).
  change (e_sub e :: map e_sub es) with (map e_sub (e :: es)).
  change (e_param e :: map e_param es) with (map e_param (e :: es)) in *.
  erewrite conform_near; [|constructor; [split; [exists t1|split; [exists t2|]]|]; eauto]. exact E.
Qed.
End Create.
