(** Creating nodes with rounded parameters (C62). *)
From Coq Require Import Reals Lra Psatz.
From Verif Require Import Base Param ParamProofs Vtree VtreeProofs Spec SpecProofs Heap Manager HeapProofs SerProofs RepProofs LoadProofs
  MulProofs TreeProofs Query QueryProofs MpeProofs SampleProofs Round RoundProofs RoundEval RoundMarg.
Local Open Scope R_scope.
Notation telem := (ptree * ptree * R)%type.

(** ** Trees of the same shape with parameters equal up to a factor, the top nodes of both summing to one up to a factor *)
Fixpoint rnear (d dl : R) (t t' : ptree) {struct t} : Prop :=
  match t, t' with
  | TLit l, TLit l' => l = l'
  | TTop v a b, TTop v' a' b' => v = v' /\ close d a a' /\ close dl (a + b) 1 /\ close dl (a' + b') 1 /\ (0 < b -> 0 < b')
  | TDec es, TDec es' =>
      (fix go l l' := match l, l' with
        | [], [] => True
        | e :: l0, e' :: l0' => rnear d dl (fst (fst e)) (fst (fst e')) /\ rnear d dl (snd (fst e)) (snd (fst e')) /\ close d (snd e) (snd e') /\ go l0 l0'
        | _, _ => False
        end) es es'
  | _, _ => False
  end.
Definition renear (d dl : R) (e e' : telem) : Prop := rnear d dl (tp e) (tp e') /\ rnear d dl (ts e) (ts e') /\ close d (tw e) (tw e').
Lemma rnear_dec d dl es es' : rnear d dl (TDec es) (TDec es') <-> Forall2 (renear d dl) es es'.
Proof.
  revert es'. induction es as [|e es IH]; intros [|e' es']; simpl; split; intros H; try contradiction; auto; try (inversion H; fail).
  - destruct H as (A & B & C & D). constructor; [split; auto|]. apply IH. exact D.
  - inversion H as [|? ? ? ? (A & B & C) F]; subst. repeat (split; auto). apply IH. exact F.
Qed.
Lemma rnear_dec_inv d dl es t' : rnear d dl (TDec es) t' -> exists es', t' = TDec es' /\ Forall2 (renear d dl) es es'.
Proof. destruct t' as [| |es']; try contradiction. intros H. exists es'. split; auto. apply rnear_dec. exact H. Qed.
Lemma rnear_base d dl t : forall t' x, rnear d dl t t' -> base t' x = base t x.
Proof.
  induction t as [l|v a b|es IH] using ptree_ind2; intros t' x H.
  - destruct t'; simpl in H; try contradiction. subst. auto.
  - destruct t'; simpl in H; try contradiction. auto.
  - apply rnear_dec_inv in H as (es' & -> & F). rewrite !base_dec. induction F as [|e e' es es' (A & B & _) F IHF]; auto.
    inversion IH as [|? ? [I1 I2] I3]; subst. simpl. rewrite IHF, (I1 _ x A), (I2 _ x B); auto.
Qed.
Lemma rnear_conforms d dl t : forall s t', rnear d dl t t' -> conforms s t' -> conforms s t.
Proof.
  induction t as [l|v a b|es IH] using ptree_ind2; intros s t' H C.
  - destruct t'; simpl in H; try contradiction. subst. auto.
  - destruct t'; simpl in H; try contradiction. destruct H as (-> & _). destruct s; simpl in *; auto.
  - apply rnear_dec_inv in H as (es' & -> & F). destruct s as [v|sl sr]; [simpl in C; contradiction|]. apply conforms_dec in C as [NE C].
    apply conforms_dec. split; [intros ->; inversion F; subst; congruence|].
    clear NE. induction F as [|e e' es es' (A & B & _) F IHF]; auto. inversion IH as [|? ? [I1 I2] I3]; inversion C as [|? ? [C1 C2] C3]; subst.
    constructor; eauto.
Qed.

Lemma rnear_conforms_r d dl t : forall s t', rnear d dl t t' -> conforms s t -> conforms s t'.
Proof.
  induction t as [l|v a b|es IH] using ptree_ind2; intros s t' H C.
  - destruct t'; simpl in H; try contradiction. subst. auto.
  - destruct t'; simpl in H; try contradiction. destruct H as (<- & _). destruct s; simpl in *; auto.
  - apply rnear_dec_inv in H as (es' & -> & F). destruct s as [v|sl sr]; [simpl in C; contradiction|]. apply conforms_dec in C as [NE C].
    apply conforms_dec. split; [intros ->; inversion F; subst; congruence|].
    clear NE. induction F as [|e e' es es' (A & B & _) F IHF]; auto. inversion IH as [|? ? [I1 I2] I3]; inversion C as [|? ? [C1 C2] C3]; subst.
    constructor; eauto.
Qed.

Lemma rnear_positive d dl t : forall t', rnear d dl t t' -> positive t -> positive t'.
Proof.
  unfold positive. induction t as [l|v a b|es IH] using ptree_ind2; intros t' H N.
  - destruct t'; simpl in H; try contradiction. simpl. auto.
  - destruct t'; simpl in H; try contradiction. destruct H as (_ & H1 & _ & _ & H2). simpl in *. destruct N as [[N1 N2] _]. split; auto. split; auto. eapply (proj1 (close_pos _ _ _ ltac:(eassumption))); auto.
  - apply rnear_dec_inv in H as (es' & -> & F). apply all_nodes_dec in N as [N1 N2]. apply all_nodes_dec.
    induction F as [|e e' es es' (A & B & C) F IHF]; auto. inversion IH as [|? ? [I1 I2] I3]; inversion N1; inversion N2 as [|? ? [M1 M2] M3]; subst.
    destruct IHF as [J1 J2]; auto. split; constructor; auto. eapply (proj1 (close_pos _ _ _ ltac:(eassumption))); auto.
Qed.
Lemma rnear_deterministic d dl t : forall t', rnear d dl t t' -> deterministic t -> deterministic t'.
Proof.
  unfold deterministic. induction t as [l|v a b|es IH] using ptree_ind2; intros t' H N.
  - destruct t'; simpl in H; try contradiction. simpl. auto.
  - destruct t'; simpl in H; try contradiction. simpl. auto.
  - apply rnear_dec_inv in H as (es' & -> & F). apply all_nodes_dec in N as [N1 N2]. apply all_nodes_dec.
    induction F as [|e e' es es' (A & B & C) F IHF]; [split; constructor|]. inversion IH as [|? ? [I1 I2] I3]; inversion N1 as [|? ? O1 O2]; inversion N2 as [|? ? [M1 M2] M3]; subst.
    destruct IHF as [J1 J2]; auto. split; constructor; auto.
    clear - F O1 A. induction F as [|f f' es es' (A' & _ & _) F IHF]; auto. inversion O1; subst. constructor; auto. intros x. rewrite (rnear_base d dl _ _ x A), (rnear_base d dl _ _ x A'). auto.
Qed.

(** ** Distance between a tree that is normalized up to a factor and a near one *)
Lemma close_diff d a b : 0 <= d -> 0 <= a -> close d a b -> Rabs (a - b) <= (exp d - 1) * a.
Proof.
  intros D A [H1 H2]. pose proof (exp_ineq1_le d) as E. apply Rabs_le. split; [lra|].
  assert (a * (2 - exp d) <= b); [|lra].
  assert (a * (2 - exp d) * exp d <= a). { assert ((2 - exp d) * exp d <= 1) by nra. nra. }
  assert (exp d > 0) by apply exp_pos. nra.
Qed.
Lemma vexp_ge1 n r : 0 <= r -> 1 <= exp (INR n * r).
Proof. intros H. pose proof (exp_ineq1_le (INR n * r)). pose proof (pos_INR n). nra. Qed.
Lemma total_near dl (DL : 0 <= dl) s : NoDup (leaves s) -> forall t x0, conforms s t -> nonneg t -> norm_near dl t ->
  close (INR (vsize s) * dl) (sum_over (leaves s) (weight t) x0) 1.
Proof.
  induction s as [v|a IHa b IHb]; intros ND t x0 C NN N; destruct t as [l|w p q|es]; simpl in C; try contradiction.
  - assert (normalized (TLit l)) as NL by (unfold normalized; simpl; auto). rewrite (normalized_total (Leaf v) (TLit l) x0 ND C NL). apply close_refl; [simpl; lra|lra].
  - subst w. destruct N as [N _]. cbn [leaves sum_over weight vsize]. rewrite !upd_same. change (INR 1) with 1. rewrite Rmult_1_l. destruct N. split; lra.
  - pose proof (fun e He => nonneg_elem es e NN He) as NE.
    apply conforms_dec in C as [_ C]. rewrite Forall_forall in C. apply all_nodes_dec in N as [N0 N]. rewrite Forall_forall in N.
    simpl in ND. destruct (leaves_disjoint a b ND) as (NDa & NDb & DJ).
    assert (sum_over (leaves (VNode a b)) (weight (TDec es)) x0 =
      rsum (fun e => sum_over (leaves a) (weight (tp e)) x0 * sum_over (leaves b) (weight (ts e)) x0 * tw e) es) as ->.
    { change (leaves (VNode a b)) with (leaves a ++ leaves b).
      rewrite <- (sum_elems a b es (fun e => weight (tp e)) (fun e => weight (ts e)) x0 ND); [|intros e He; apply weight_depends, C; auto..].
      apply sum_over_ext'. intros y. rewrite weight_dec. reflexivity. }
    assert (INR (vsize (VNode a b)) * dl = (INR (vsize a) * dl + INR (vsize b) * dl) + dl) as ->. { cbn [vsize]. rewrite !S_INR, plus_INR || rewrite !plus_INR. simpl. ring. }
    eapply close_trans; [|exact N0]. apply close_rsum; [pose proof (pos_INR (vsize a)); pose proof (pos_INR (vsize b)); nra|].
    intros e He. destruct (C e He) as [C1 C2], (N e He) as [N1 N2], (NE e He) as (E1 & E2 & E3).
    rewrite <- (Rmult_1_l (tw e)) at 2. apply close_mul_r; auto. rewrite <- (Rmult_1_l 1) at 1. apply close_mul; try lra; auto.
    + apply sum_over_nonneg. intros; apply weight_nonneg; auto.
    + apply sum_over_nonneg. intros; apply weight_nonneg; auto.
Qed.
Lemma rnear_tv d dl (D : 0 <= d) (DL : 0 <= dl) s : NoDup (leaves s) -> forall t t' x0, conforms s t -> rnear d dl t t' -> norm_near dl t -> nonneg t -> nonneg t' ->
  sum_over (leaves s) (fun x => Rabs (weight t x - weight t' x)) x0 <= exp (INR (vsize s) * (2 * d + 3 * dl)) - exp (INR (vsize s) * dl).
Proof.
  pose proof (exp_ineq1_le d) as E1. pose proof (exp_ineq1_le dl) as E2.
  induction s as [v|sl IHl sr IHr]; intros ND t t' x0 C NR N NN NN'.
  - cbn [vsize]. change (INR 1) with 1. rewrite !Rmult_1_l.
    assert (exp (2 * d + 3 * dl) = (exp d * exp d) * (exp dl * exp dl * exp dl)) as ->. { rewrite <- !exp_plus. f_equal. ring. }
    destruct t as [l|w a b|es]; simpl in C; try contradiction; subst; destruct t' as [l'|w' a' b'|es']; simpl in NR; try contradiction.
    + subst l'. simpl. rewrite !Rminus_eq_0, !Rabs_R0. assert (1 <= exp d * exp d) by nra. assert (1 <= exp dl * exp dl) by nra. assert (exp dl <= exp dl * exp dl * exp dl) by nra. nra.
    + destruct NR as (<- & CL & [S1 S2] & [S3 S4] & _). pose proof (all_nodes_root _ _ NN) as NA. simpl in NA. destruct NA as [NA NB].
      pose proof (close_diff d a a' D NA CL) as CD. cbn [leaves sum_over weight]. rewrite !upd_same. simpl.
      set (X := exp d) in *. set (Y := exp dl) in *.
      assert (Rabs (b - b') <= Rabs (a - a') + (Y - / Y)) as HB.
      { replace (b - b') with (- (a - a') + ((a + b) - (a' + b'))) by ring. eapply Rle_trans; [apply Rabs_triang|]. rewrite Rabs_Ropp. apply Rplus_le_compat_l.
        assert (0 < Y) as Y0 by lra. assert (forall r, 1 <= Y * r -> / Y <= r) as IV.
        { intros r Hr. apply Rmult_le_reg_l with Y; auto. rewrite Rinv_r by lra. auto. }
        pose proof (IV _ S1). pose proof (IV _ S3). apply Rabs_le. split; lra. }
      assert (/ Y * Y = 1) as IY by (apply Rinv_l; lra). assert (0 < / Y) as IP by (apply Rinv_0_lt_compat; lra).
      assert ((X - 1) * a <= (X - 1) * Y) as XA by (apply Rmult_le_compat_l; lra).
      assert (Y - / Y <= Y * Y * Y - Y) as YY. { apply Rmult_le_reg_r with Y; [lra|]. rewrite !Rmult_minus_distr_r, IY. assert (1 <= Y * Y) by nra. nra. }
      assert (2 * ((X - 1) * Y) + (Y * Y * Y - Y) + Y <= X * X * (Y * Y * Y)); [|lra].
      assert (2 * X - 1 <= X * X) by nra. assert (1 <= Y * Y) by nra. 
      assert ((2 * X - 1) * Y <= X * X * Y) by (apply Rmult_le_compat_r; lra).
      assert (1 <= X * X) by nra. assert (X * X + Y * Y - 1 <= X * X * (Y * Y)) by nra.
      assert ((X * X + Y * Y - 1) * Y <= X * X * (Y * Y) * Y) by (apply Rmult_le_compat_r; lra). nra.
  - assert (exp (INR (vsize (VNode sl sr)) * (2 * d + 3 * dl)) = exp (INR (vsize sl) * (2 * d + 3 * dl)) * exp (INR (vsize sr) * (2 * d + 3 * dl)) * exp (2 * d + 3 * dl)) as ->.
    { rewrite <- !exp_plus. f_equal. cbn [vsize]. rewrite !S_INR, plus_INR || rewrite !plus_INR. simpl. ring. }
    assert (exp (INR (vsize (VNode sl sr)) * dl) = exp (INR (vsize sl) * dl) * exp (INR (vsize sr) * dl) * exp dl) as ->.
    { rewrite <- !exp_plus. f_equal. cbn [vsize]. rewrite !S_INR, plus_INR || rewrite !plus_INR. simpl. ring. }
    destruct t as [l|w a b|es]; try contradiction. apply rnear_dec_inv in NR as (es' & -> & F). apply conforms_dec in C as [NE C].
    simpl in ND. destruct (leaves_disjoint sl sr ND) as (NDl & NDr & DJ).
    apply all_nodes_dec in N as [N1 N2], NN as [A1 A2], NN' as [B1 B2].
    assert (0 <= 2 * d + 3 * dl) as CP by lra.
    set (Kl := exp (INR (vsize sl) * (2 * d + 3 * dl))) in *. set (Kr := exp (INR (vsize sr) * (2 * d + 3 * dl))) in *.
    set (gl := exp (INR (vsize sl) * dl)) in *. set (gr := exp (INR (vsize sr) * dl)) in *.
    assert (1 <= Kl) as GKl by (apply vexp_ge1; auto). assert (1 <= Kr) as GKr by (apply vexp_ge1; auto).
    assert (1 <= gl) as Ggl by (apply vexp_ge1; auto). assert (1 <= gr) as Ggr by (apply vexp_ge1; auto).
    assert (forall x, Rabs (weight (TDec es) x - weight (TDec es') x) <=
      rsum (fun ee => Rabs (weight (tp (fst ee)) x - weight (tp (snd ee)) x) * (weight (ts (fst ee)) x * tw (fst ee)) +
                      (weight (tp (snd ee)) x * (Rabs (weight (ts (fst ee)) x - weight (ts (snd ee)) x) * tw (fst ee)) +
                      weight (tp (snd ee)) x * (weight (ts (snd ee)) x * ((exp d - 1) * tw (fst ee))))) (combine es es')) as PW.
    { intros x. rewrite !weight_dec. clear - F A1 A2 B1 B2 D. induction F as [|e e' es es' (Np & Ns & Nw) F IH]; simpl.
      - rewrite Rminus_eq_0, Rabs_R0. lra.
      - inversion A1 as [|? ? W0 A1']; inversion A2 as [|? ? [P0 S0] A2']; inversion B1 as [|? ? W0' B1']; inversion B2 as [|? ? [P0' S0'] B2']; subst.
        specialize (IH A1' A2' B1' B2').
        pose proof (close_diff d _ _ D W0 Nw) as CD.
        pose proof (weight_nonneg _ x P0). pose proof (weight_nonneg _ x S0). pose proof (weight_nonneg _ x P0'). pose proof (weight_nonneg _ x S0').
        set (p := weight (tp e) x) in *. set (q := weight (ts e) x) in *. set (p' := weight (tp e') x) in *. set (q' := weight (ts e') x) in *.
        set (w := tw e) in *. set (w' := tw e') in *.
        match goal with |- Rabs (?a + ?b - (?c + ?f)) <= _ => replace (a + b - (c + f)) with ((a - c) + (b - f)) by ring end.
        eapply Rle_trans; [apply Rabs_triang|]. apply Rplus_le_compat; [|exact IH].
        replace (p * q * w - p' * q' * w') with ((p - p') * (q * w) + (p' * ((q - q') * w) + p' * (q' * (w - w')))) by ring.
        eapply Rle_trans; [apply Rabs_triang|]. apply Rplus_le_compat.
        { rewrite Rabs_mult. apply Rmult_le_compat_l; [apply Rabs_pos|]. rewrite Rabs_pos_eq; [lra|]. apply Rmult_le_pos; auto. }
        eapply Rle_trans; [apply Rabs_triang|]. apply Rplus_le_compat.
        + rewrite Rabs_mult, (Rabs_pos_eq p') by auto. apply Rmult_le_compat_l; auto. rewrite Rabs_mult, (Rabs_pos_eq w) by auto. lra.
        + rewrite Rabs_mult, (Rabs_pos_eq p') by auto. apply Rmult_le_compat_l; auto. rewrite Rabs_mult, (Rabs_pos_eq q') by auto. apply Rmult_le_compat_l; auto. }
    eapply Rle_trans; [apply sum_over_le; exact PW|]. rewrite sum_over_rsum. simpl leaves.
    apply Rle_trans with (rsum (fun ee : telem * telem => tw (fst ee) * (Kl * Kr * exp d - gl * gr)) (combine es es')).
    + apply rsum_le. intros [e e'] He.
      assert (In e es) as Ie by (eapply in_combine_l; eauto). assert (In e' es') as Ie' by (eapply in_combine_r; eauto).
      assert (renear d dl e e') as (Np & Ns & Nw).
      { clear - F He. induction F as [|a b es es' R F IH]; [contradiction|]. destruct He as [E|He]; [injection E as -> ->; auto|auto]. }
      rewrite Forall_forall in C, N2, A1, A2, B1, B2. destruct (C e Ie) as [C1 C2], (N2 e Ie) as [M1 M2], (A2 e Ie) as [P1 P2], (B2 e' Ie') as [Q1 Q2].
      pose proof (A1 e Ie) as W0. pose proof (IHl NDl _ _ x0 C1 Np M1 P1 Q1) as Tl. pose proof (IHr NDr _ _ x0 C2 Ns M2 P2 Q2) as Tr. fold Kl gl in Tl. fold Kr gr in Tr.
      pose proof (rnear_conforms_r d dl _ _ _ Np C1) as C1'. pose proof (rnear_conforms_r d dl _ _ _ Ns C2) as C2'.
      cbn [fst snd]. rewrite !sum_over_plus.
      set (Dl := sum_over (leaves sl) (fun x => Rabs (weight (tp e) x - weight (tp e') x)) x0) in *. set (Dr := sum_over (leaves sr) (fun x => Rabs (weight (ts e) x - weight (ts e') x)) x0) in *.
      assert (0 <= Dl) by (apply sum_over_nonneg; intros; apply Rabs_pos). assert (0 <= Dr) by (apply sum_over_nonneg; intros; apply Rabs_pos).
      destruct (total_near dl DL sl NDl (tp e) x0 C1 P1 M1) as [_ Sp]. destruct (total_near dl DL sr NDr (ts e) x0 C2 P2 M2) as [_ Sq]. fold gl in Sp. fold gr in Sq. rewrite Rmult_1_r in Sp, Sq.
      assert (sum_over (leaves sl) (weight (tp e')) x0 <= gl + Dl) as Sp'.
      { eapply Rle_trans; [|apply Rplus_le_compat_r; exact Sp]. unfold Dl. rewrite <- sum_over_plus. apply sum_over_le. intros y. pose proof (Rle_abs (weight (tp e') y - weight (tp e) y)) as RA. rewrite Rabs_minus_sym in RA. lra. }
      assert (sum_over (leaves sr) (weight (ts e')) x0 <= gr + Dr) as Sq'.
      { eapply Rle_trans; [|apply Rplus_le_compat_r; exact Sq]. unfold Dr. rewrite <- sum_over_plus. apply sum_over_le. intros y. pose proof (Rle_abs (weight (ts e') y - weight (ts e) y)) as RA. rewrite Rabs_minus_sym in RA. lra. }
      assert (0 <= sum_over (leaves sl) (weight (tp e')) x0) as Sp0 by (apply sum_over_nonneg; intros; apply weight_nonneg; auto).
      assert (0 <= sum_over (leaves sr) (weight (ts e')) x0) as Sq0 by (apply sum_over_nonneg; intros; apply weight_nonneg; auto).
      assert (0 <= sum_over (leaves sr) (weight (ts e)) x0) as Sq1 by (apply sum_over_nonneg; intros; apply weight_nonneg; auto).
      assert (depends_on (leaves sl) (weight (tp e))) as Dp by (intros y z A; apply (weight_depends sl _ C1); auto).
      assert (depends_on (leaves sr) (weight (ts e))) as Dq by (intros y z A; apply (weight_depends sr _ C2); auto).
      assert (depends_on (leaves sl) (weight (tp e'))) as Dp' by (intros y z A; apply (weight_depends sl _ C1'); auto).
      assert (depends_on (leaves sr) (weight (ts e'))) as Dq' by (intros y z A; apply (weight_depends sr _ C2'); auto).
      rewrite (sum_over_factor (leaves sl) (leaves sr) (fun y => Rabs (weight (tp e) y - weight (tp e') y)) (fun y => weight (ts e) y * tw e)); auto.
      2:{ intros y z A. rewrite (Dp y z A), (Dp' y z A). reflexivity. } 2:{ intros y z A. rewrite (Dq y z A). reflexivity. }
      rewrite (sum_over_factor (leaves sl) (leaves sr) (weight (tp e')) (fun y => Rabs (weight (ts e) y - weight (ts e') y) * tw e)); auto.
      2:{ intros y z A. rewrite (Dq y z A), (Dq' y z A). reflexivity. }
      rewrite (sum_over_factor (leaves sl) (leaves sr) (weight (tp e')) (fun y => weight (ts e') y * ((exp d - 1) * tw e))); auto.
      2:{ intros y z A. rewrite (Dq' y z A). reflexivity. }
      fold Dl.
      assert (forall f c, sum_over (leaves sr) (fun y => f y * c) x0 = sum_over (leaves sr) f x0 * c) as SR.
      { intros f c. rewrite (Rmult_comm _ c), <- sum_over_scal. apply sum_over_ext'. intros; ring. }
      rewrite !SR. fold Dr.
      set (a := sum_over (leaves sl) (weight (tp e')) x0) in *. set (b := sum_over (leaves sr) (weight (ts e')) x0) in *. set (q := sum_over (leaves sr) (weight (ts e)) x0) in *. set (w := tw e) in *.
      assert (Dl * (q * w) <= Dl * (gr * w)). { apply Rmult_le_compat_l; auto. apply Rmult_le_compat_r; auto. }
      assert (a * (Dr * w) <= (gl + Dl) * Dr * w). { rewrite <- Rmult_assoc. apply Rmult_le_compat_r; auto. apply Rmult_le_compat_r; auto. }
      assert (a * b <= (gl + Dl) * (gr + Dr)) as AB by (apply Rmult_le_compat; auto).
      assert (a * (b * ((exp d - 1) * w)) <= (gl + Dl) * (gr + Dr) * ((exp d - 1) * w)).
      { rewrite <- Rmult_assoc. apply Rmult_le_compat_r; auto. apply Rmult_le_pos; lra. }
      assert ((gl + Dl) * (gr + Dr) <= Kl * Kr) as KK by (apply Rmult_le_compat; lra).
      apply Rle_trans with (w * ((gl + Dl) * (gr + Dr) * exp d - gl * gr)); [nra|]. apply Rmult_le_compat_l; auto.
      assert ((gl + Dl) * (gr + Dr) * exp d <= Kl * Kr * exp d) by (apply Rmult_le_compat_r; lra). lra.
    + rewrite rsum_scal_r.
      assert (rsum (fun ee : telem * telem => tw (fst ee)) (combine es es') = rsum tw es) as ->.
      { clear - F. induction F as [|e e' es es' R F IH]; simpl; auto. rewrite IH. reflexivity. }
      destruct N1 as [_ N1]. rewrite Rmult_1_r in N1.
      assert (gl * gr <= Kl * Kr) as GK. { apply Rmult_le_compat; try lra; unfold gl, gr, Kl, Kr; apply exp_mono; apply Rmult_le_compat_l; try apply pos_INR; lra. }
      assert (0 <= Kl * Kr) by nra. assert (0 <= Kl * Kr * exp d - gl * gr) by nra.
      apply Rle_trans with (exp dl * (Kl * Kr * exp d - gl * gr)); [apply Rmult_le_compat_r; auto|].
      assert (exp dl * exp d <= exp (2 * d + 3 * dl)). { rewrite <- exp_plus. apply exp_mono. lra. }
      assert (Kl * Kr * (exp dl * exp d) <= Kl * Kr * exp (2 * d + 3 * dl)) by (apply Rmult_le_compat_l; auto). nra.
Qed.
(** The comparisons: == holds only between parameters that agree up to a factor [exp d] if both are in range. *)
Record pcompare (P : pops) (val : P -> R) (B d : R) : Prop := {
  cm_d : 0 <= d;
  cm_nonneg : forall a, 0 <= val a;
  cm_refl : forall a : P, peq a a = true;
  cm_sym : forall a b : P, peq a b = peq b a;
  cm_irrefl : forall a : P, plt a a = false;
  cm_tri : forall a b : P, plt a b = false -> plt b a = false -> peq a b = true;
  cm_zero : forall a, peq a pzero = true -> val a = 0;
  cm_close : forall a b, range B (val a) -> range B (val b) -> peq a b = true -> val b <= exp d * val a;
}.
Arguments cm_d {P val B d}. Arguments cm_nonneg {P val B d}. Arguments cm_refl {P val B d}. Arguments cm_sym {P val B d}. Arguments cm_irrefl {P val B d}.
Arguments cm_tri {P val B d}. Arguments cm_zero {P val B d}. Arguments cm_close {P val B d}.
Theorem float_compare F B u eta : float_ok F B u eta -> pcompare (Lfloat F) lval B (f_tol B u).
Proof.
  intros HF. split.
  - pose proof (fk_u _ _ _ _ HF). pose proof (fk_B _ _ _ _ HF). unfold f_tol. nra.
  - intros [|x]; simpl; [lra|]. left. apply exp_pos.
  - intros a. simpl. unfold f_eq. destruct (f_hash F a); auto. apply Z.eqb_refl.
  - intros a b. simpl. unfold f_eq. destruct (f_hash F a), (f_hash F b); auto. apply Z.eqb_sym.
  - intros a. simpl. unfold f_lt. destruct (f_eq F a a) eqn:E; auto. unfold f_eq in E. destruct (f_hash F a); [rewrite Z.eqb_refl in E|]; discriminate.
  - intros a b. simpl. unfold f_lt. assert (f_eq F b a = f_eq F a b) as -> by (unfold f_eq; destruct (f_hash F a), (f_hash F b); auto; apply Z.eqb_sym).
    destruct (f_eq F a b) eqn:E; auto. intros H1 H2. exfalso. destruct a as [|x], b as [|y]; try (simpl in *; discriminate).
    unfold l_lt, lx, xltb in H1, H2. destruct (Rlt_dec x y); [discriminate|]. destruct (Rlt_dec y x); [discriminate|]. assert (x = y) as -> by lra.
    unfold f_eq in E. simpl in E. rewrite Z.eqb_refl in E. discriminate.
  - intros [|x]; simpl; auto. unfold f_eq. simpl. discriminate.
  - intros a b Ha Hb E. simpl in E. eapply (f_near F B u eta HF); auto. unfold f_lt. rewrite E. reflexivity.
Qed.
(** ** Creation *)
(** the parameters of the nodes of a flag are in range, and its top nodes are positive and sum to one up to [exp dl] *)
Section Fit.
Context {P : pops} (val : P -> R) (B dl : R).
Definition top_fit (a b : R) : Prop := 0 < a /\ 0 < b /\ range B a /\ range B b /\ close dl (a + b) 1.
Definition body_fit (b : body P) : Prop :=
  match b with BLit _ => True | BTop _ pt pf => top_fit (val pt) (val pf) | BDec es => Forall (fun e => range B (val (e_param e))) es end.
Definition fits (fl : N) (m : mgr P) : Prop := forall i nd, In i (m_live m) -> nth_error (m_heap m) i = Some nd -> n_flag nd = fl -> body_fit (n_body nd).
End Fit.
Section Create.
Context {P : pops} (val : P -> R) (B d dl : R) (HP : pcompare P val B d).
Notation mgr := (mgr P). Notation node := (node P). Notation node_at := (node_at val).
Notation body_fit := (body_fit val B dl). Notation fits := (fits val B dl).
Definition InvF (fl : N) (m : mgr) : Prop := Wf m /\ fits fl m.
Lemma peq_close a b : range B (val a) -> range B (val b) -> peq a b = true -> close d (val a) (val b).
Proof. intros Ra Rb H. split; [apply (cm_close HP); auto|]. apply (cm_close HP); auto. rewrite (cm_sym HP). auto. Qed.
Definition elem_sim (e e' : elem P) := e_prime e = e_prime e' /\ e_sub e = e_sub e' /\ close d (val (e_param e)) (val (e_param e')).
Definition body_close (b b' : body P) : Prop :=
  match b, b' with
  | BLit l, BLit l' => l = l'
  | BTop v pt _, BTop v' pt' _ => v = v' /\ close d (val pt) (val pt')
  | BDec es, BDec es' => Forall2 elem_sim es es'
  | _, _ => False
  end.
Lemma elems_equiv_close (l1 : list (elem P)) : forall l2, Forall (fun e => range B (val (e_param e))) l1 -> Forall (fun e => range B (val (e_param e))) l2 ->
  elems_less l1 l2 = false -> elems_less l2 l1 = false -> Forall2 elem_sim l1 l2.
Proof.
  induction l1 as [|e l1 IH]; intros [|e' l2] R1 R2 H1 H2; simpl in *; try discriminate; auto. inversion R1; inversion R2; subst.
  rewrite (Nat.eqb_sym (e_prime e') (e_prime e)), (Nat.eqb_sym (e_sub e') (e_sub e)), (cm_sym HP (e_param e') (e_param e)) in H2.
  destruct (Nat.eqb (e_prime e) (e_prime e')) eqn:E1; simpl in *.
  - destruct (Nat.eqb (e_sub e) (e_sub e')) eqn:E2; simpl in *.
    + destruct (peq (e_param e) (e_param e')) eqn:E3; simpl in *.
      * constructor; auto. apply Nat.eqb_eq in E1, E2. split; auto. split; auto. apply peq_close; auto.
      * exfalso. pose proof (cm_tri HP _ _ H1 H2). congruence.
    + apply Nat.eqb_neq in E2. apply Nat.ltb_ge in H1, H2. lia.
  - apply Nat.eqb_neq in E1. apply Nat.ltb_ge in H1, H2. lia.
Qed.
Lemma equiv_close (a b : node) : body_fit (n_body a) -> body_fit (n_body b) -> equiv a b = true -> body_close (n_body a) (n_body b).
Proof.
  intros Fa Fb H. pose proof (equiv_flag a b H) as F. unfold equiv, node_less in H.
  rewrite F, !N.eqb_refl in H. simpl in H. apply andb_true_iff in H as [H1 H2]. apply negb_true_iff in H1, H2.
  destruct (n_body a) as [la|va ta fa|ea], (n_body b) as [lb|vb tb fb|eb]; try discriminate; simpl.
  - apply Z.ltb_ge in H1, H2. lia.
  - destruct Fa as (_ & _ & Ra & _), Fb as (_ & _ & Rb & _).
    rewrite (N.eqb_sym vb va) in H2. destruct (N.eqb va vb) eqn:E; simpl in *.
    + apply N.eqb_eq in E. split; auto. apply peq_close; auto. apply (cm_tri HP); auto.
    + apply N.eqb_neq in E. apply N.ltb_ge in H1, H2. lia.
  - apply elems_equiv_close; auto.
Qed.
(** the node found or made stands for a tree near the requested one *)
Definition rnear_at (m : mgr) (i : nat) (p : path) (t : ptree) : Prop := exists t', node_at m i p t' /\ rnear d dl t t'.
Lemma rnear_at_ext fl m m' i p t : mext fl m m' -> rnear_at m i p t -> rnear_at m' i p t.
Proof. intros X (t' & A & C). exists t'. split; auto. eapply node_at_ext; eauto. Qed.
Lemma rnear_at_conforms m i p t : Wf m -> rnear_at m i p t -> exists s, subtree (m_vt m) p = Some s /\ conforms s t.
Proof. intros W (t' & A & C). destruct (node_at_conforms val m i p t' W A) as (s & S & K). exists s. split; auto. eapply rnear_conforms; eauto. Qed.
Lemma intern_rnear fl m nd i m' : InvF fl m -> n_flag nd = fl -> body_fit (n_body nd) ->
  node_ok (m_vt m) (m_heap m) (length (m_heap m)) nd -> GetUniqueNode m nd = (i, m') ->
  InvF fl m' /\ mext fl m m' /\ In i (m_live m') /\
  exists nd', nth_error (m_heap m') i = Some nd' /\ n_vt nd' = n_vt nd /\ n_flag nd' = fl /\ body_close (n_body nd) (n_body nd') /\ body_fit (n_body nd').
Proof.
  intros [W T0] Ef BO NO E.
  destruct (unique_wf (cm_refl HP) (cm_irrefl HP) m nd i m' W NO E) as (W' & X & L & _ & nd' & E1 & V & F & S & Q).
  rewrite Ef in *.
  assert (fits fl m') as T1.
  { destruct (unique_spec (cm_refl HP) (cm_irrefl HP) m nd i m' W NO E) as (_ & _ & _ & _ & [[-> _]|(Ei & Eh & El)]); auto.
    intros j ndj Hj Ej Efj. rewrite El in Hj. rewrite Eh in Ej.
    apply in_app_iff in Hj as [Hj|[<-|[]]].
    - rewrite nth_error_app1 in Ej by (apply (wf_range _ W); auto). eapply T0; eauto.
    - rewrite Ei, nth_error_app2, Nat.sub_diag in Ej by lia. injection Ej as <-. exact BO. }
  split; [split; auto|]. split; auto. split; auto. exists nd'. pose proof (T1 i nd' L E1 F). repeat split; auto. apply equiv_close; auto.
Qed.
Lemma literal_rnear fl m l p : InvF fl m -> subtree (m_vt m) p = Some (Leaf (lit_var l)) ->
  exists i m', GetPsddLiteralNode m l fl = Ok (i, m') /\ InvF fl m' /\ mext fl m m' /\ In i (m_live m') /\
    rnear_at m' i p (TLit l) /\ flag_of (m_heap m') i = Some fl.
Proof.
  intros I S. unfold GetPsddLiteralNode. pose proof (leaf_path_unique _ _ _ (wf_leaves _ (proj1 I)) S) as E.
  unfold lit_var in E. rewrite E.
  destruct (GetUniqueNode m (MkN p fl (BLit l))) as [i m'] eqn:EU. exists i, m'. split; auto.
  assert (NO : node_ok (m_vt m) (m_heap m) (length (m_heap m)) (MkN p fl (BLit l))) by exact S.
  destruct (intern_rnear fl m (MkN p fl (BLit l)) i m' I eq_refl Logic.I NO EU) as (I' & X & L & nd' & E1 & V & F & C & _).
  simpl in C, V. destruct (n_body nd') as [l'| |] eqn:Eb; try contradiction. subst l'.
  split; auto. split; auto. split; auto. split; [exists (TLit l); split; [split|simpl; auto]|].
  - unfold vt_of. rewrite E1. simpl. congruence.
  - econstructor; eauto.
  - unfold flag_of. rewrite E1. simpl. congruence.
Qed.
Lemma pos_not_zero a : 0 < val a -> peq a pzero = false.
Proof. intros H. destruct (peq a pzero) eqn:E; auto. apply (cm_zero HP) in E. lra. Qed.
Lemma top_rnear fl m v pt pf p : InvF fl m -> subtree (m_vt m) p = Some (Leaf v) -> top_fit B dl (val pt) (val pf) ->
  exists i m' nd pt' pf', GetPsddTopNode m v fl pt pf = Ok (i, m') /\ InvF fl m' /\ mext fl m m' /\ In i (m_live m') /\
    rnear_at m' i p (TTop v (val pt) (val pf)) /\ flag_of (m_heap m') i = Some fl /\
    nth_error (m_heap m') i = Some nd /\ n_body nd = BTop v pt' pf' /\ peq pt' pzero = false /\ peq pf' pzero = false.
Proof.
  intros I S TO. unfold GetPsddTopNode. pose proof (leaf_path_unique _ _ _ (wf_leaves _ (proj1 I)) S) as E.
  rewrite E.
  destruct (GetUniqueNode m (MkN p fl (BTop v pt pf))) as [i m'] eqn:EU.
  assert (NO : node_ok (m_vt m) (m_heap m) (length (m_heap m)) (MkN p fl (BTop v pt pf))) by exact S.
  destruct (intern_rnear fl m (MkN p fl (BTop v pt pf)) i m' I eq_refl TO NO EU) as (I' & X & L & nd' & E1 & V & F & C & TN).
  simpl in C, V. destruct (n_body nd') as [|v' pt' pf'|] eqn:Eb; try contradiction. destruct C as (<- & C1). simpl in TN.
  destruct TO as (_ & _ & _ & _ & S1). destruct TN as (T1 & T2 & _ & _ & S2).
  exists i, m', nd', pt', pf'. split; auto. split; auto. split; auto. split; auto. split; [|split].
  - exists (TTop v (val pt') (val pf')). split; [split|].
    + unfold vt_of. rewrite E1. simpl. congruence.
    + econstructor; eauto.
    + simpl. auto.
  - unfold flag_of. rewrite E1. simpl. congruence.
  - rewrite !pos_not_zero by auto. auto.
Qed.
Lemma Forall2_elem_sim h es es' : Forall2 elem_sim es es' -> forall tes tes', Forall2 (ElemRep val h) es tes' -> Forall2 (renear d dl) tes tes' ->
  (Forall2 (fun e te => tw te = val (e_param e)) es tes) ->
  exists tes2, Forall2 (ElemRep val h) es' tes2 /\ Forall2 (renear d dl) tes tes2.
Proof.
  induction 1 as [|e e' es es' (A & A' & C) F IH]; intros tes tes' H1 H2 H3; inversion H1 as [|? te' ? tes0' (R1 & R2 & R3) H1']; subst; inversion H2 as [|te ? tes0 ? (N1 & N2 & N3) H2']; subst; inversion H3; subst.
  - exists []. auto.
  - destruct (IH tes0 tes0') as (tes2 & G1 & G2); auto. exists ((tp te', ts te', val (e_param e')) :: tes2). split; constructor; auto.
    + unfold ElemRep. rewrite <- A, <- A'. unfold tp, ts, tw; simpl. auto.
    + split; [exact N1|]. split; [exact N2|]. unfold tw at 2; simpl. match goal with H : tw te = _ |- _ => rewrite H end. exact C.
Qed.
Definition elem_rnear (m : mgr) (p : path) (e : elem P) (te : telem) : Prop :=
  rnear_at m (e_prime e) (false :: p) (tp te) /\ rnear_at m (e_sub e) (true :: p) (ts te) /\ tw te = val (e_param e).
Lemma new_dec_rnear fl m vt es tes : InvF fl m -> (exists l r, subtree (m_vt m) vt = Some (VNode l r)) -> es <> [] -> Forall2 (elem_rnear m vt) es tes ->
  Forall (fun e => range B (val (e_param e))) es ->
  exists i m' tes', new_dec m vt fl (map e_prime es) (map e_sub es) (map e_param es) = Ok (i, m') /\
    InvF fl m' /\ mext fl m m' /\ In i (m_live m') /\ Permutation tes tes' /\
    rnear_at m' i vt (TDec tes') /\ flag_of (m_heap m') i = Some fl.
Proof.
  intros I HV NE FE RE. unfold new_dec.
  assert (mk_elems (map e_param es) 0 (map e_prime es) (map e_sub es) = Ok es) as EM.
  { apply (mk_elems_ok es []). destruct es; [congruence|discriminate]. }
  rewrite EM. cbn [bind].
  destruct (GetUniqueNode m (MkN vt fl (BDec (sort_elems es)))) as [i m'] eqn:EU.
  pose proof (Permutation_sym (sort_elems_perm es)) as PS.
  assert (NO : node_ok (m_vt m) (m_heap m) (length (m_heap m)) (MkN vt fl (BDec (sort_elems es)))).
  { simpl. split; [|split; auto].
    - intros Z. apply NE. rewrite Z in PS. apply Permutation_sym, Permutation_nil in PS. auto.
    - apply Forall_forall. intros e He. apply (Permutation_in _ (Permutation_sym PS)) in He.
      destruct (Forall2_in_l _ _ _ _ FE He) as (te & _ & (t1 & [A _] & _) & (t2 & [A' _] & _) & _). repeat split; auto; eapply vt_of_lt; eauto. }
  assert (body_fit (BDec (sort_elems es))) as BF. { simpl. eapply Permutation_Forall; [exact PS|exact RE]. }
  destruct (intern_rnear fl m (MkN vt fl (BDec (sort_elems es))) i m' I eq_refl BF NO EU) as (I' & X & L & nd' & E1 & V & F & C & _).
  simpl in C, V. destruct (n_body nd') as [| |es'] eqn:Eb; try contradiction.
  destruct (Forall2_perm _ _ _ PS _ FE) as (tes' & PT & FR').
  assert (exists tes1, Forall2 (ElemRep val (m_heap m')) (sort_elems es) tes1 /\ Forall2 (renear d dl) tes' tes1) as (tes1 & G1 & G2).
  { clear - FR' X HP. induction FR' as [|e te l l' (A & A' & C) FR IH]; [exists []; auto|]. destruct IH as (tes1 & G1 & G2).
    destruct A as (t1 & A1 & A2), A' as (t2 & B1 & B2). exists ((t1, t2, val (e_param e)) :: tes1). split; constructor; auto.
    - split; [|split; [|reflexivity]]; unfold tp, ts; simpl; eapply Rep_mext; eauto; [apply A1|apply B1].
    - split; [exact A2|]. split; [exact B2|]. rewrite C. unfold tw; simpl. apply close_refl; [apply (cm_d HP)|apply (cm_nonneg HP)]. }
  destruct (Forall2_elem_sim (m_heap m') _ _ C tes' tes1 G1 G2) as (tes2 & K1 & K2).
  { clear - FR'. induction FR' as [|e te l l' (_ & _ & C) FR IH]; constructor; auto. }
  exists i, m', tes'. split; auto. split; auto. split; auto. split; auto. split; auto. split; [exists (TDec tes2); split; [split|]|].
  - unfold vt_of. rewrite E1. simpl. congruence.
  - eapply Rep_dec; eauto.
  - apply rnear_dec. exact K2.
  - unfold flag_of. rewrite E1. simpl. congruence.
Qed.
(** GetConformedPsddDecisionNode on nodes of the children *)
Lemma conform_rnear gt p fl tm m : forall es tes, Forall2 (elem_rnear m p) es tes ->
  conform_loop gt (@Some path (false :: p)) (@Some path (true :: p)) fl (map e_prime es) (map e_sub es) tm m = Ok (map e_prime es, map e_sub es, m).
Proof.
  intros es tes F. induction F as [|e te es tes ((t1 & A & _) & (t2 & A' & _) & _) F IH]; [reflexivity|].
  cbn [map conform_loop]. rewrite (normalize_here val gt (false :: p) fl (e_prime e) tm m t1 A). cbn [bind].
  rewrite (normalize_here val gt (true :: p) fl (e_sub e) tm m t2 A'). cbn [bind]. rewrite IH. reflexivity.
Qed.
Lemma conformed_rnear fl m p l r es tes : InvF fl m -> subtree (m_vt m) p = Some (VNode l r) -> es <> [] -> Forall2 (elem_rnear m p) es tes ->
  Forall (fun e => range B (val (e_param e))) es ->
  exists i m' tes', GetConformedPsddDecisionNode m (map e_prime es) (map e_sub es) (map e_param es) fl = Ok (i, m') /\
    InvF fl m' /\ mext fl m m' /\ In i (m_live m') /\ Permutation tes tes' /\ rnear_at m' i p (TDec tes') /\ flag_of (m_heap m') i = Some fl.
Proof.
  intros I HV NE F RE.
  destruct (new_dec_rnear fl m p es tes I (ex_intro _ l (ex_intro _ r HV)) NE F RE) as (i & m' & tes' & E & R).
  exists i, m', tes'. split; [|exact R]. unfold GetConformedPsddDecisionNode, conformed_with.
  destruct F as [|e te es tes ((t1 & A & N1) & (t2 & A' & N2) & W) F]; [congruence|]. cbn [map hd_error get bind].
  rewrite (proj1 A), (proj1 A'). cbn [get bind].
  assert (vlca (false :: p) (true :: p) = p) as -> by exact (vlca_split [] [] p).
  rewrite !(vkid_node _ _ _ _ _ HV).
  change (e_prime e :: map e_prime es) with (map e_prime (e :: es)).
  change (e_sub e :: map e_sub es) with (map e_sub (e :: es)).
  change (e_param e :: map e_param es) with (map e_param (e :: es)) in *.
  erewrite conform_rnear; [|constructor; [split; [exists t1|split; [exists t2|]]|]; eauto]. exact E.
Qed.
End Create.
