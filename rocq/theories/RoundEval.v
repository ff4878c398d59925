(** Evaluate with rounded arithmetic (C59). *)
From Coq Require Import Reals Lra Psatz.
From Verif Require Import Base Param ParamProofs Vtree VtreeProofs Spec SpecProofs Heap Manager HeapProofs SerProofs RepProofs LoadProofs
  MulProofs TreeProofs Query QueryProofs MpeProofs SampleProofs Round RoundProofs.
Local Open Scope R_scope.

(** ** [close] and [range] *)
Lemma close_refl e x : 0 <= e -> 0 <= x -> close e x x.
Proof. apply close_same. Qed.
Lemma close_trans e f x y z : close e x y -> close f y z -> close (e + f) x z.
Proof.
  intros [A1 A2] [B1 B2]. unfold close. rewrite exp_plus. pose proof (exp_pos e). pose proof (exp_pos f). split.
  - apply Rle_trans with (exp f * y); auto. replace (exp e * exp f * x) with (exp f * (exp e * x)) by ring. apply Rmult_le_compat_l; lra.
  - apply Rle_trans with (exp e * y); auto. rewrite Rmult_assoc. apply Rmult_le_compat_l; lra.
Qed.
Lemma close_sym e x y : close e x y -> close e y x.
Proof. intros [A B]. split; auto. Qed.
Lemma close_weaken e f x y : e <= f -> 0 <= x -> 0 <= y -> close e x y -> close f x y.
Proof. intros H X Y [A B]. pose proof (exp_mono e f H). split; nra. Qed.
Lemma close_mul e f x y x' y' : 0 <= x -> 0 <= y -> 0 <= x' -> 0 <= y' -> close e x y -> close f x' y' -> close (e + f) (x * x') (y * y').
Proof.
  intros X Y X' Y' [A1 A2] [B1 B2]. unfold close. rewrite exp_plus. split.
  - replace (exp e * exp f * (x * x')) with (exp e * x * (exp f * x')) by ring. apply Rmult_le_compat; auto.
  - replace (exp e * exp f * (y * y')) with (exp e * y * (exp f * y')) by ring. apply Rmult_le_compat; auto.
Qed.
Lemma close_mul_r e x y w : 0 <= w -> close e x y -> close e (x * w) (y * w).
Proof. intros W [A B]. unfold close. rewrite <- !Rmult_assoc. split; apply Rmult_le_compat_r; auto. Qed.
Lemma close_add e x y x' y' : close e x y -> close e x' y' -> close e (x + x') (y + y').
Proof. intros [A1 A2] [B1 B2]. unfold close. rewrite !Rmult_plus_distr_l. lra. Qed.
Lemma close_pos e x y : close e x y -> (0 < x <-> 0 < y).
Proof. intros [A B]. pose proof (exp_pos e). split; intros G; nra. Qed.
Lemma range_0 a : range a 0.
Proof. left. auto. Qed.
Lemma range_1 a : 0 <= a -> range a 1.
Proof. intros H. right. rewrite <- exp_0. split; apply exp_mono; lra. Qed.
Lemma range_nonneg a x : range a x -> 0 <= x.
Proof. intros [->|[H _]]; [lra|]. pose proof (exp_pos (- a)). lra. Qed.
Lemma range_weaken a b x : a <= b -> range a x -> range b x.
Proof. intros H [->|[A B]]; [left; auto|right]. pose proof (exp_mono (- b) (- a)). pose proof (exp_mono a b H). lra. Qed.
Lemma range_mul a b x y : range a x -> range b y -> range (a + b) (x * y).
Proof.
  intros [->|[A1 A2]] [->|[B1 B2]]; try (left; lra). right. rewrite Ropp_plus_distr, !exp_plus.
  pose proof (exp_pos (- a)). pose proof (exp_pos (- b)). split; apply Rmult_le_compat; lra.
Qed.
Lemma range_close a c x y : range a x -> close c x y -> 0 <= y -> range (a + c) y.
Proof.
  intros [->|[A1 A2]] [C1 C2] Y.
  - left. lra.
  - right. pose proof (exp_pos c). rewrite Ropp_plus_distr, !exp_plus. split.
    + rewrite exp_Ropp with (x := c). apply Rmult_le_reg_r with (exp c); auto. rewrite Rmult_assoc, Rinv_l by lra. lra.
    + rewrite Rmult_comm. apply Rle_trans with (exp c * x); auto. apply Rmult_le_compat_l; lra.
Qed.
Lemma range_sum {A} M (f : A -> R) l n : (length l <= n)%nat -> (forall a, In a l -> range M (f a)) -> range (M + ln (INR n)) (rsum f l).
Proof.
  intros Hn H. destruct l as [|a0 l0] eqn:El; [left; reflexivity|]. rewrite <- El in *.
  assert (1 <= INR n) as N1. { change 1 with (INR 1). apply le_INR. rewrite El in Hn. simpl in Hn. lia. }
  assert (0 <= ln (INR n)) as LN. { rewrite <- ln_1. apply ln_mono; lra. }
  assert (forall l', incl l' l -> (rsum f l' = 0 \/ exp (- M) <= rsum f l') /\ rsum f l' <= INR (length l') * exp M) as K.
  { induction l' as [|a l' IH]; intros I; [simpl; split; [auto|lra]|]. destruct IH as [I1 I2]; [intros z Hz; apply I; right; auto|].
    assert (range M (f a)) as R by (apply H, I; left; auto). pose proof (range_nonneg _ _ R). cbn [rsum length]. rewrite S_INR.
    change (rsum f (a :: l')) with (f a + rsum f l').
    assert (0 <= rsum f l') by (destruct I1 as [->|I1]; [lra|pose proof (exp_pos (- M)); lra]).
    pose proof (exp_pos M). destruct R as [R0|[R1 R2]]; (split; [|lra]).
    - rewrite R0, Rplus_0_l. auto.
    - right. lra. }
  destruct (K l (incl_refl l)) as [[->|K1] K2]; [left; auto|right]. rewrite Ropp_plus_distr, !exp_plus, exp_Ropp with (x := ln (INR n)), exp_ln by lra.
  pose proof (exp_pos (- M)). pose proof (exp_pos M). apply le_INR in Hn. split.
  - apply Rle_trans with (exp (- M) * 1); [|lra]. apply Rmult_le_compat_l; [lra|]. rewrite <- Rinv_1. apply Rinv_le_contravar; lra.
  - apply Rle_trans with (INR (length l) * exp M); auto. rewrite Rmult_comm. apply Rmult_le_compat_l; lra.
Qed.

(** ** The number of rounded operations on a longest way down and the size of the logarithms *)
Fixpoint cost (t : ptree) : nat :=
  match t with
  | TLit _ | TTop _ _ _ => 0
  | TDec es => fold_right Nat.max 0 (map (fun e => cost (fst (fst e)) + cost (snd (fst e))) es) + length es + 1
  end%nat.
Definition lg (w : R) : R := Rabs (ln w).
Fixpoint mag (t : ptree) : R :=
  match t with
  | TLit _ => 0
  | TTop _ a b => Rmax (lg a) (lg b)
  | TDec es => fold_right Rmax 0 (map (fun e => mag (fst (fst e)) + mag (snd (fst e)) + lg (snd e)) es) + ln (INR (length es))
  end.
Lemma max_in {A} (f : A -> nat) l a : In a l -> (f a <= fold_right Nat.max 0 (map f l))%nat.
Proof. induction l as [|b l IH]; intros []; simpl; [subst; lia|]. specialize (IH H). lia. Qed.
Lemma rmax_in {A} (f : A -> R) l a : In a l -> f a <= fold_right Rmax 0 (map f l).
Proof. induction l as [|b l IH]; intros []; simpl; [subst; apply Rmax_l|]. eapply Rle_trans; [apply IH; auto|apply Rmax_r]. Qed.
Lemma rmax_nonneg l : 0 <= fold_right Rmax 0 l.
Proof. induction l as [|b l IH]; simpl; [lra|]. eapply Rle_trans; [exact IH|apply Rmax_r]. Qed.
Lemma lg_nonneg w : 0 <= lg w.
Proof. apply Rabs_pos. Qed.
Lemma range_lg w : 0 <= w -> range (lg w) w.
Proof.
  intros [H|<-]; [right|left; auto]. rewrite <- (exp_ln w H) at 2 3. unfold lg. split; apply exp_mono.
  - pose proof (Rle_abs (- ln w)). rewrite Rabs_Ropp in *. lra.
  - apply Rle_abs.
Qed.
Lemma ln_len {A} (l : list A) : 0 <= ln (INR (length l)).
Proof.
  destruct l as [|a l].
  - simpl. unfold ln. destruct (Rlt_dec 0 0) as [C|C]; [exfalso; lra|apply Rle_refl].
  - rewrite <- ln_1. apply ln_mono; [lra|]. cbn [length]. rewrite S_INR. pose proof (pos_INR (length l)). lra.
Qed.
Lemma mag_nonneg t : 0 <= mag t.
Proof.
  destruct t as [l|v a b|es]; cbn [mag]; [lra| |].
  - eapply Rle_trans; [apply (lg_nonneg a)|apply Rmax_l].
  - pose proof (rmax_nonneg (map (fun e => mag (fst (fst e)) + mag (snd (fst e)) + lg (snd e)) es)). pose proof (ln_len es). lra.
Qed.
Lemma mag_elem es e : In e es -> mag (tp e) + mag (ts e) + lg (tw e) + ln (INR (length es)) <= mag (TDec es).
Proof. intros H. cbn [mag]. pose proof (rmax_in (fun e : telem => mag (fst (fst e)) + mag (snd (fst e)) + lg (snd e)) es e H). unfold tp, ts, tw. lra. Qed.
Lemma cost_elem es e : In e es -> (cost (tp e) + cost (ts e) + length es + 1 <= cost (TDec es))%nat.
Proof. intros H. cbn [cost]. pose proof (max_in (fun e : telem => (cost (fst (fst e)) + cost (snd (fst e)))%nat) es e H). unfold tp, ts. simpl in *. lia. Qed.
Lemma nonneg_elem es e : nonneg (TDec es) -> In e es -> nonneg (tp e) /\ nonneg (ts e) /\ 0 <= tw e.
Proof.
  unfold nonneg. intros H He. apply all_nodes_dec in H as [H1 H2]. rewrite Forall_forall in *. destruct (H2 e He). specialize (H1 e He). auto.
Qed.
Definition tterm mask x (e : telem) : R := tev mask x (tp e) * tev mask x (ts e) * tw e.
Lemma tev_range mask x t : nonneg t -> range (mag t) (tev mask x t).
Proof.
  induction t as [l|v a b|es IH] using ptree_ind2; intros NN.
  - cbn [tev mag]. destruct (mask _); [destruct (lit_sat l x)|]; try apply range_1; try lra. apply range_0.
  - cbn [tev mag]. unfold nonneg in NN. simpl in NN. destruct NN as [[Ha Hb] _]. destruct (mask v); [destruct (x v)|].
    + eapply range_weaken; [apply Rmax_l|apply range_lg; auto].
    + eapply range_weaken; [apply Rmax_r|apply range_lg; auto].
    + apply range_1. eapply Rle_trans; [apply (lg_nonneg a)|apply Rmax_l].
  - cbn [tev mag]. apply range_sum; auto. intros e He. rewrite Forall_forall in IH. destruct (IH e He) as [I1 I2].
    destruct (nonneg_elem es e NN He) as (N1 & N2 & N3). eapply range_weaken; [|apply range_mul; [apply range_mul; [apply (I1 N1)|apply (I2 N2)]|apply (range_lg _ N3)]].
    exact (rmax_in (fun e : telem => mag (fst (fst e)) + mag (snd (fst e)) + lg (snd e)) es e He).
Qed.
Lemma tterm_range mask x es e : nonneg (TDec es) -> In e es -> range (mag (tp e) + mag (ts e) + lg (tw e)) (tterm mask x e).
Proof.
  intros NN He. destruct (nonneg_elem es e NN He) as (N1 & N2 & N3). apply range_mul; [apply range_mul; apply tev_range; auto|apply range_lg; auto].
Qed.

(** top nodes sum to one up to a factor [exp dl] *)
Definition tops_near (dl : R) : ptree -> Prop := all_nodes (fun t => match t with TTop _ a b => close dl (a + b) 1 | _ => True end).
Lemma tops_one_near dl t : 0 <= dl -> tops_one t -> tops_near dl t.
Proof.
  intros D. unfold tops_one, tops_near. induction t as [l|v a b|es IH] using ptree_ind2; intros H; auto.
  - simpl in *. destruct H as [-> _]. split; auto. apply close_refl; lra.
  - apply all_nodes_dec in H as [_ H]. apply all_nodes_dec. split; auto. rewrite Forall_forall in *. intros e He. destruct (H e He), (IH e He). auto.
Qed.
Lemma masked_nonneg vs mask x t y : nonneg t -> 0 <= masked vs mask x (weight t) y.
Proof. intros N. unfold masked. destruct (agreesb vs mask x y); [apply weight_nonneg; auto|lra]. Qed.
Lemma tev_near vt dl : 0 <= dl -> NoDup (leaves vt) -> forall t mask x x0, conforms vt t -> nonneg t -> tops_near dl t ->
  close (INR (length (leaves vt)) * dl) (tev mask x t) (sum_over (leaves vt) (masked (leaves vt) mask x (weight t)) x0).
Proof.
  intros D. induction vt as [v|a IHa b IHb]; intros ND t mask x x0 C N T; destruct t as [l|w p q|es]; simpl in C; try contradiction.
  - rewrite <- (tev_sum (Leaf v) ND (TLit l) mask x x0) by (simpl; auto). apply close_refl; [simpl; lra|]. cbn [tev]. destruct (mask (Z.abs_N l)), (lit_sat l x); lra.
  - subst v. cbn [length leaves tev]. change (INR 1) with 1. rewrite Rmult_1_l. unfold masked, agreesb. simpl. rewrite !upd_same, !andb_true_r.
    unfold nonneg in N. simpl in T, N. destruct T as [T _], N as [[N1 N2] _].
    destruct (mask w); simpl; [|destruct T; split; lra].
    destruct (x w); simpl; rewrite ?Rplus_0_l, ?Rplus_0_r; apply close_refl; auto.
  - pose proof (fun e He => nonneg_elem es e N He) as NE.
    apply conforms_dec in C as [_ C]. rewrite Forall_forall in C. apply all_nodes_dec in T as [_ T]. rewrite Forall_forall in T.
    simpl in ND. destruct (leaves_disjoint a b ND) as (NDa & NDb & DJ).
    assert (sum_over (leaves (VNode a b)) (masked (leaves (VNode a b)) mask x (weight (TDec es))) x0 =
      rsum (fun e => sum_over (leaves a) (masked (leaves a) mask x (weight (tp e))) x0 * sum_over (leaves b) (masked (leaves b) mask x (weight (ts e))) x0 * tw e) es) as ->.
    { change (leaves (VNode a b)) with (leaves a ++ leaves b). rewrite <- sum_elems; auto.
      * apply sum_over_ext'. intros y. unfold masked. rewrite agreesb_app, weight_dec.
        destruct (agreesb (leaves a) mask x y), (agreesb (leaves b) mask x y); simpl; auto.
        all: symmetry; transitivity (rsum (fun _ : telem => 0) es); [apply rsum_ext; intros; lra|apply rsum_0].
      * intros e He. apply masked_depends, weight_depends, C; auto.
      * intros e He. apply masked_depends, weight_depends, C; auto. }
    change (tev mask x (TDec es)) with (rsum (fun e => tev mask x (tp e) * tev mask x (ts e) * tw e) es).
    assert (forall l, incl l es -> close (INR (length (leaves (VNode a b))) * dl) (rsum (fun e => tev mask x (tp e) * tev mask x (ts e) * tw e) l)
      (rsum (fun e => sum_over (leaves a) (masked (leaves a) mask x (weight (tp e))) x0 * sum_over (leaves b) (masked (leaves b) mask x (weight (ts e))) x0 * tw e) l)) as K; [|apply K, incl_refl].
    induction l as [|e l IH]; intros I.
    + simpl. apply close_refl; [|lra]. apply Rmult_le_pos; auto. apply pos_INR.
    + cbn [rsum]. apply close_add; [|apply IH; intros f Hf; apply I; right; auto]. assert (In e es) as He by (apply I; left; auto).
      destruct (C e He) as [C1 C2], (T e He) as [T1 T2], (NE e He) as (N1 & N2 & N3). apply close_mul_r; auto.
      change (leaves (VNode a b)) with (leaves a ++ leaves b). rewrite app_length, plus_INR, Rmult_plus_distr_r.
      apply close_mul; auto; try (eapply range_nonneg; apply tev_range; auto); apply sum_over_nonneg; intros; apply masked_nonneg; auto.
Qed.
Section RoundEval.
Context {P : pops} (val : P -> R) (B e d : R) (HP : pround P val B e d).
Notation heap := (heap P). Notation node := (node P).
Notation Rep := (Rep val).
Notation ke := (fun n : nat => INR n * e).
Lemma ke_nonneg n : 0 <= INR n * e.
Proof. apply Rmult_le_pos; [apply pos_INR|apply (rd_e HP)]. Qed.
Lemma ke_le m n : (m <= n)%nat -> INR m * e <= INR n * e.
Proof. intros H. apply Rmult_le_compat_r; [apply (rd_e HP)|apply le_INR; auto]. Qed.
Lemma ke_plus m n : INR (m + n) * e = INR m * e + INR n * e.
Proof. rewrite plus_INR. ring. Qed.
Lemma Rep_nonneg_r (h : heap) t : forall i, Rep h i t -> nonneg t.
Proof.
  unfold nonneg. induction t as [l|v a b|es IH] using ptree_ind2; intros i HR.
  - simpl. auto.
  - apply Rep_top_inv in HR as (nd & pt & pf & _ & _ & -> & ->). simpl. split; [split; apply (rd_nonneg HP)|auto].
  - apply Rep_dec_inv in HR as (nd & les & _ & _ & F). apply all_nodes_dec. rewrite Forall_forall in IH.
    assert (forall te, In te es -> exists e, ElemRep val h e te) as K.
    { clear IH. induction F as [|f te les es HH F IHF]; intros g []; subst; eauto. }
    split; apply Forall_forall; intros te Hte; destruct (K te Hte) as (f & A & C & W).
    + rewrite W. apply (rd_nonneg HP).
    + destruct (IH te Hte) as [I1 I2]. eauto.
Qed.
(** a product [a * b * w], [a] and [b] close to [x] and [y] *)
Lemma term_close a b w x y m n M1 M2 : close (INR m * e) x (val a) -> close (INR n * e) y (val b) -> range M1 x -> range M2 y -> 0 <= M1 -> 0 <= M2 ->
  M1 + M2 + lg (val w) + INR (m + n + 2) * e <= B ->
  close (INR (m + n + 2) * e) (x * y * val w) (val (pmul (pmul a b) w)).
Proof.
  intros Ca Cb Rx Ry P1 P2 HB. pose proof (rd_nonneg HP) as V0. pose proof (range_nonneg _ _ Rx) as X0. pose proof (range_nonneg _ _ Ry) as Y0.
  pose proof (lg_nonneg (val w)) as G0. pose proof (ke_nonneg m) as Km. pose proof (ke_nonneg n) as Kn. pose proof (rd_e HP) as E0.
  assert (INR (m + n + 2) * e = INR m * e + INR n * e + e + e) as KE. { rewrite !ke_plus. change (INR 2) with (1 + 1). ring. } rewrite KE in *.
  pose proof (close_mul _ _ _ _ _ _ X0 (V0 a) Y0 (V0 b) Ca Cb) as C1.
  pose proof (range_mul _ _ _ _ Rx Ry) as R1.
  assert (close (INR m * e + INR n * e + e) (x * y) (val (pmul a b))) as C2.
  { eapply close_trans; [exact C1|]. apply (rd_mul HP).
    - eapply range_weaken; [|eapply range_close; [exact Rx|exact Ca|auto]]. lra.
    - eapply range_weaken; [|eapply range_close; [exact Ry|exact Cb|auto]]. lra.
    - eapply range_weaken; [|eapply range_close; [exact R1|exact C1|apply Rmult_le_pos; auto]]. lra. }
  pose proof (close_mul_r _ _ _ (val w) (V0 w) C2) as C3. pose proof (range_mul _ _ _ _ R1 (range_lg _ (V0 w))) as R3.
  eapply close_trans; [exact C3|]. apply (rd_mul HP).
  - eapply range_weaken; [|eapply range_close; [exact R1|exact C2|auto]]. lra.
  - eapply range_weaken; [|apply range_lg; auto]. lra.
  - eapply range_weaken; [|eapply range_close; [exact R3|exact C3|apply Rmult_le_pos; auto]]. lra.
Qed.
(** a sum: [n] more terms, each close with [k], added to a value close with [k + j] *)
Lemma sum_close {A X} (l : list A) (tl : list X) (f : X -> R) (g : A -> P) M0 k : forall acc s j,
  Forall2 (fun a t => close (INR k * e) (f t) (val (g a))) l tl -> close (INR (k + j) * e) s (val acc) -> range M0 s ->
  (forall tl1 tl2, tl = tl1 ++ tl2 -> range M0 (s + rsum f tl1)) -> (forall t, In t tl -> range M0 (f t)) ->
  M0 + INR (k + j + length l) * e <= B ->
  close (INR (k + j + length l) * e) (s + rsum f tl) (val (fold_left (fun acc a => padd acc (g a)) l acc)).
Proof.
  intros acc s j F. revert acc s j. induction F as [|a t l tl C F IH]; intros acc s j Cs Rs Rp Rt HB; cbn [fold_left].
  - cbn [length] in *. rewrite Nat.add_0_r. change (rsum f []) with 0. rewrite Rplus_0_r. auto.
  - change (rsum f (t :: tl)) with (f t + rsum f tl). rewrite <- Rplus_assoc. cbn [length] in *. replace (k + j + S (length l))%nat with (k + S j + length l)%nat in * by lia.
    pose proof (rd_nonneg HP) as V0. pose proof (rd_e HP) as E0. assert (range M0 (f t)) as Rt0 by (apply Rt; left; auto).
    assert (close (INR (k + j) * e) (f t) (val (g a))) as C'. { eapply close_weaken; [|apply (range_nonneg _ _ Rt0)|apply V0|exact C]. apply ke_le. lia. }
    pose proof (close_add _ _ _ _ _ Cs C') as CA. assert (range M0 (s + f t)) as Rst. { specialize (Rp [t] tl eq_refl). cbn [rsum] in Rp. change (rsum f [t]) with (f t + 0) in Rp. rewrite Rplus_0_r in Rp. auto. }
    assert (INR (k + j) * e <= INR (k + S j + length l) * e) as KL by (apply ke_le; lia).
    apply IH; auto.
    + replace (INR (k + S j) * e) with (INR (k + j) * e + e). { eapply close_trans; [exact CA|]. apply (rd_add HP).
        - eapply range_weaken; [|eapply range_close; [exact Rs|exact Cs|auto]]. lra.
        - eapply range_weaken; [|eapply range_close; [exact Rt0|exact C'|auto]]. lra.
        - eapply range_weaken; [|eapply range_close; [exact Rst|exact CA|]]; [lra|]. pose proof (V0 acc). pose proof (V0 (g a)). lra. }
      rewrite Nat.add_succ_r, S_INR. ring.
    + intros tl1 tl2 ->. rewrite Rplus_assoc. apply (Rp (t :: tl1) tl2). reflexivity.
    + intros t' Ht'. apply Rt. right; auto.
Qed.
Definition evq mask x (v : P) (t : ptree) : Prop := nonneg t -> mag t + INR (cost t) * e <= B -> close (INR (cost t) * e) (tev mask x t) (val v).
Lemma round_fun_ok mask x : node_fun_ok val (evq mask x) (eval_node mask x).
Proof.
  pose proof (rd_nonneg HP) as V0. pose proof (rd_e HP) as E0. split; [|split]; intros c nd; unfold evq.
  - intros l E _ _. unfold eval_node. rewrite E. cbn [cost tev]. simpl INR. rewrite Rmult_0_l. unfold lit_sat, lit_var, lit_sign.
    destruct (mask (Z.abs_N l)); [destruct (Bool.eqb _ _)|]; rewrite ?(rd_one HP), ?(rd_zero HP); apply close_refl; lra.
  - intros v pt pf E _ _. unfold eval_node. rewrite E. cbn [cost tev]. simpl INR. rewrite Rmult_0_l. destruct (mask v); [destruct (x v)|]; rewrite ?(rd_one HP); apply close_refl; try lra; auto.
  - intros es tes E F NN HB. unfold eval_node. rewrite E. clear E.
    assert (length es = length tes) as LE by (clear - F; induction F; simpl; congruence).
    destruct F as [|f tf es tes F0 F]. { cbn [fold_left]. rewrite (rd_zero HP). change (tev mask x (TDec [])) with 0. apply close_refl; [apply ke_nonneg|lra]. }
    set (all := tf :: tes) in *. assert (Forall2 (elem_rel val (evq mask x) c) (f :: es) all) as FA by (constructor; auto).
    assert (exists k, cost (TDec all) = k + length es /\ forall t, In t all -> cost (tp t) + cost (ts t) + 2 <= k)%nat as (k & Ek & Hk).
    { exists (cost (TDec all) - length es)%nat. assert (length all = S (length es)) as LA by (unfold all; simpl in *; lia). split.
      - cbn [cost]. rewrite LA. lia.
      - intros t Ht. pose proof (cost_elem all t Ht). lia. }
    set (M0 := mag (TDec all)) in *. rewrite Ek in HB.
    assert (forall t, In t all -> range M0 (tterm mask x t)) as RT.
    { intros t Ht. eapply range_weaken; [|eapply tterm_range; eauto]. pose proof (mag_elem all t Ht). pose proof (ln_len all). unfold M0. lra. }
    assert (forall l1 l2, all = l1 ++ l2 -> range M0 (rsum (tterm mask x) l1)) as RS.
    { intros l1 l2 EA. unfold M0. cbn [mag]. apply range_sum.
      - rewrite EA, app_length. lia.
      - intros t Ht. assert (In t all) as Ha by (rewrite EA; apply in_app_iff; auto). eapply range_weaken; [|eapply tterm_range; eauto].
        exact (rmax_in (fun e : telem => mag (fst (fst e)) + mag (snd (fst e)) + lg (snd e)) all t Ha). }
    assert (Forall2 (fun a t => close (INR k * e) (tterm mask x t) (val (pmul (pmul (c (e_prime a)) (c (e_sub a))) (e_param a)))) (f :: es) all) as FC.
    { eapply Forall2_impl_in; [|exact FA]. intros a t Ia It (A1 & A2 & A3). destruct (nonneg_elem all t NN It) as (N1 & N2 & N3).
      pose proof (Hk t It) as Hkt. pose proof (mag_elem all t It) as Hm. pose proof (mag_nonneg (tp t)). pose proof (mag_nonneg (ts t)). pose proof (lg_nonneg (tw t)). pose proof (ln_len all).
      fold M0 in Hm. assert (INR (cost (tp t) + cost (ts t) + 2) * e <= INR (k + length es) * e) as K1 by (apply ke_le; lia).
      assert (INR (cost (tp t)) * e <= INR (k + length es) * e) as K2 by (apply ke_le; lia). assert (INR (cost (ts t)) * e <= INR (k + length es) * e) as K3 by (apply ke_le; lia).
      eapply close_weaken; [apply (ke_le _ _ Hkt)| |apply V0|].
      - apply (range_nonneg M0). auto.
      - unfold tterm. rewrite A3. apply (term_close _ _ _ _ _ _ _ (mag (tp t)) (mag (ts t))); auto using tev_range.
        + apply A1; auto. lra.
        + apply A2; auto. lra.
        + rewrite <- A3. lra. }
    inversion FC as [|? ? ? ? C0 FC']; subst. cbn [fold_left].
    pose proof (sum_close es tes (tterm mask x) (fun a => pmul (pmul (c (e_prime a)) (c (e_sub a))) (e_param a)) M0 k
      (padd pzero (pmul (pmul (c (e_prime f)) (c (e_sub f))) (e_param f))) (tterm mask x tf) 0 FC') as SC.
    rewrite Nat.add_0_r in SC. rewrite Ek. change (tev mask x (TDec all)) with (tterm mask x tf + rsum (tterm mask x) tes). apply SC; auto.
    + rewrite (rd_add0 HP). auto.
    + apply RT. left; auto.
    + intros l1 l2 EL. apply (RS (tf :: l1) l2). unfold all. rewrite EL. reflexivity.
    + intros t Ht. apply RT. right; auto.
Qed.
Lemma round_evaluate (m : mgr P) i s t mask x : psdd_at val m i s t -> mag t + INR (cost t) * e <= B ->
  exists v, Evaluate (m_heap m) mask x i = Ok v /\ close (INR (cost t) * e) (tev mask x t) (val v).
Proof.
  intros A HB. destruct (psdd_at_facts val _ _ _ _ A) as (HO & ND & C & L & SO). destruct A as (_ & HR & _).
  destruct (cached_spec val _ _ HO i L SO (evq mask x) (eval_node mask x) (fun _ => pzero) (round_fun_ok mask x)) as (c & E & H & _).
  exists (c i). unfold Evaluate. rewrite (so_eq _ _ _ SO). cbn [bind]. unfold EvaluateNodes, eval_step. rewrite E, (front_root _ _ _ SO). split; [reflexivity|].
  apply (H i t); auto; [eapply root_in; eauto|eapply Rep_nonneg_r; eauto].
Qed.
Theorem round_evaluate_sum (m : mgr P) i s t mask x dl : psdd_at val m i s t -> tops_near dl t -> 0 <= dl -> mag t + INR (cost t) * e <= B ->
  exists v, Evaluate (m_heap m) mask x i = Ok v /\
    forall x0, close (INR (cost t) * e + INR (length (leaves s)) * dl) (sum_over (leaves s) (masked (leaves s) mask x (weight t)) x0) (val v).
Proof.
  intros A T1 D0 HB. destruct (psdd_at_facts val _ _ _ _ A) as (HO & ND & C & _). destruct (round_evaluate m i s t mask x A HB) as (v & E & H).
  destruct A as (_ & HR & _). exists v. split; auto. intros x0. rewrite Rplus_comm.
  eapply close_trans; [|exact H]. apply close_sym, tev_near; auto. exact (Rep_nonneg_r _ _ _ HR).
Qed.
End RoundEval.
