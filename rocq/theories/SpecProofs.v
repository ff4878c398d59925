(** Facts about the specification layer. *)
From Coq Require Import Reals Lra Psatz.
From Verif Require Import Base Vtree VtreeProofs Spec.
Local Open Scope R_scope.

Definition agree_on (vs : list N) (x y : inst) : Prop := forall v, In v vs -> x v = y v.

Lemma upd_same x v b : upd x v b v = b.
Proof. unfold upd. rewrite N.eqb_refl. reflexivity. Qed.
Lemma upd_other x v b w : w <> v -> upd x v b w = x w.
Proof. unfold upd. intros H. apply N.eqb_neq in H. rewrite H. reflexivity. Qed.

(** ** rsum *)
Lemma rsum_nil {A} (f : A -> R) : rsum f [] = 0. Proof. reflexivity. Qed.
Lemma rsum_cons {A} (f : A -> R) a l : rsum f (a :: l) = f a + rsum f l. Proof. reflexivity. Qed.
Lemma rsum_app {A} (f : A -> R) l1 l2 : rsum f (l1 ++ l2) = rsum f l1 + rsum f l2.
Proof. induction l1; simpl; [lra|]. rewrite IHl1. lra. Qed.
Lemma rsum_ext {A} (f g : A -> R) l : (forall a, In a l -> f a = g a) -> rsum f l = rsum g l.
Proof. induction l; simpl; intros H; auto. rewrite H, IHl; auto. Qed.
Lemma rsum_plus {A} (f g : A -> R) l : rsum (fun a => f a + g a) l = rsum f l + rsum g l.
Proof. induction l; simpl; [lra|]. rewrite IHl. lra. Qed.
Lemma rsum_scal {A} (f : A -> R) c l : rsum (fun a => c * f a) l = c * rsum f l.
Proof. induction l; simpl; [lra|]. rewrite IHl. lra. Qed.
Lemma rsum_scal_r {A} (f : A -> R) c l : rsum (fun a => f a * c) l = rsum f l * c.
Proof. induction l; simpl; [lra|]. rewrite IHl. lra. Qed.
Lemma rsum_map {A B} (f : B -> R) (g : A -> B) l : rsum f (map g l) = rsum (fun a => f (g a)) l.
Proof. induction l; simpl; auto. rewrite IHl. reflexivity. Qed.
Lemma rsum_0 {A} (l : list A) : rsum (fun _ => 0) l = 0.
Proof. induction l; simpl; lra. Qed.
Lemma rsum_nonneg {A} (f : A -> R) l : (forall a, In a l -> 0 <= f a) -> 0 <= rsum f l.
Proof.
  induction l; simpl; intros H; [lra|]. pose proof (H a (or_introl eq_refl)).
  assert (0 <= rsum f l) by (apply IHl; auto). lra.
Qed.
Lemma rsum_pos {A} (f : A -> R) l : (forall a, In a l -> 0 <= f a) -> (exists a, In a l /\ 0 < f a) -> 0 < rsum f l.
Proof.
  induction l as [|b l IH]; simpl; intros H (a & Ha & Hf); [contradiction|].
  pose proof (H b (or_introl eq_refl)). pose proof (rsum_nonneg f l ltac:(auto)).
  destruct Ha as [->|Ha]; [lra|]. assert (0 < rsum f l) by (apply IH; eauto). lra.
Qed.
Lemma rsum_perm {A} (f : A -> R) l l' : Permutation l l' -> rsum f l = rsum f l'.
Proof. induction 1; simpl; lra. Qed.
Lemma rsum_le {A} (f g : A -> R) l : (forall a, In a l -> f a <= g a) -> rsum f l <= rsum g l.
Proof.
  induction l; simpl; intros H; [lra|]. pose proof (H a (or_introl eq_refl)).
  assert (rsum f l <= rsum g l) by (apply IHl; auto). lra.
Qed.
Lemma rsum_elem {A} (f : A -> R) l a : (forall b, In b l -> 0 <= f b) -> In a l -> f a <= rsum f l.
Proof.
  induction l as [|b l IH]; simpl; intros H Ha; [contradiction|]. destruct Ha as [->|Ha].
  - pose proof (rsum_nonneg f l ltac:(auto)). lra.
  - pose proof (H b (or_introl eq_refl)). specialize (IH ltac:(auto) Ha). lra.
Qed.
Lemma rsum_prod {A B} (f : A -> R) (g : B -> R) l1 l2 :
  rsum (fun ab => f (fst ab) * g (snd ab)) (list_prod l1 l2) = rsum f l1 * rsum g l2.
Proof.
  induction l1; simpl; [lra|]. rewrite rsum_app, IHl1, rsum_map. simpl. rewrite rsum_scal. lra.
Qed.

(** ** Dependence on variables *)
Definition depends_on (vs : list N) {A} (f : inst -> A) : Prop := forall x y, agree_on vs x y -> f x = f y.

Lemma agree_on_app_l a b x y : agree_on (a ++ b) x y -> agree_on a x y.
Proof. intros H v Hv. apply H, in_app_iff; auto. Qed.
Lemma agree_on_app_r a b x y : agree_on (a ++ b) x y -> agree_on b x y.
Proof. intros H v Hv. apply H, in_app_iff; auto. Qed.

Lemma conforms_dec a b es : conforms (VNode a b) (TDec es) <->
  es <> [] /\ Forall (fun e => conforms a (tp e) /\ conforms b (ts e)) es.
Proof. reflexivity. Qed.

Lemma weight_dec es x : weight (TDec es) x = rsum (fun e => weight (tp e) x * weight (ts e) x * tw e) es.
Proof. reflexivity. Qed.
Lemma base_dec es x : base (TDec es) x = existsb (fun e => base (tp e) x && base (ts e) x) es.
Proof. reflexivity. Qed.

Lemma weight_depends vt : forall t, conforms vt t -> depends_on (leaves vt) (weight t).
Proof.
  induction vt as [v|a IHa b IHb]; intros t H x y E; destruct t as [l|w p q|es]; simpl in H; try contradiction.
  - simpl. unfold lit_sat. subst v. rewrite (E (Z.abs_N l)); simpl; auto.
  - simpl. subst w. rewrite (E v); simpl; auto.
  - destruct H as [_ H]. rewrite Forall_forall in H. rewrite !weight_dec. simpl in E. apply rsum_ext. intros e He. destruct (H e He) as [H1 H2].
    rewrite (IHa _ H1 x y), (IHb _ H2 x y); eauto using agree_on_app_l, agree_on_app_r.
Qed.
Lemma existsb_ext {A} (f g : A -> bool) l : (forall a, In a l -> f a = g a) -> existsb f l = existsb g l.
Proof. induction l; simpl; intros H; auto. rewrite H, IHl; auto. Qed.
Lemma base_depends vt : forall t, conforms vt t -> depends_on (leaves vt) (base t).
Proof.
  induction vt as [v|a IHa b IHb]; intros t H x y E; destruct t as [l|w p q|es]; simpl in H; try contradiction.
  - simpl. unfold lit_sat. subst v. rewrite (E (Z.abs_N l)); simpl; auto.
  - reflexivity.
  - destruct H as [_ H]. rewrite Forall_forall in H. rewrite !base_dec. apply existsb_ext. intros e He. destruct (H e He) as [H1 H2].
    simpl in E. rewrite (IHa _ H1 x y), (IHb _ H2 x y); eauto using agree_on_app_l, agree_on_app_r.
Qed.

(** ** Positivity *)
Lemma positive_nonneg t : positive t -> nonneg t.
Proof.
  unfold positive, nonneg. induction t as [l|v a b|es IH] using ptree_ind2; intros H.
  - exact H.
  - simpl in *. lra.
  - apply all_nodes_dec in H as [H1 H2]. apply all_nodes_dec. split.
    + eapply Forall_impl; [|exact H1]. simpl. intros; lra.
    + rewrite Forall_forall in *. intros e He. destruct (IH e He), (H2 e He). auto.
Qed.
Lemma weight_nonneg t x : nonneg t -> 0 <= weight t x.
Proof.
  unfold nonneg. induction t as [l|v a b|es IH] using ptree_ind2; intros H.
  - simpl. destruct (lit_sat l x); lra.
  - simpl in *. destruct (x v); lra.
  - apply all_nodes_dec in H as [H1 H2]. rewrite weight_dec. apply rsum_nonneg. intros e He.
    rewrite Forall_forall in *. destruct (IH e He), (H2 e He). pose proof (H1 e He). simpl in *.
    apply Rmult_le_pos; auto. apply Rmult_le_pos; auto.
Qed.
(** With positive parameters the support is the base. *)
Lemma weight_pos_base t x : positive t -> (0 < weight t x <-> base t x = true).
Proof.
  unfold positive. induction t as [l|v a b|es IH] using ptree_ind2; intros H.
  - simpl. destruct (lit_sat l x); split; intros; try lra; congruence.
  - simpl in *. destruct (x v); split; intros; try lra; congruence.
  - pose proof H as H0. apply all_nodes_dec in H as [H1 H2]. rewrite weight_dec, base_dec.
    rewrite Forall_forall in *. 
    assert (forall e, In e es -> 0 <= weight (tp e) x * weight (ts e) x * tw e) as NN.
    { intros e He. destruct (H2 e He). pose proof (H1 e He). simpl in *.
      apply Rmult_le_pos; [apply Rmult_le_pos; apply weight_nonneg, positive_nonneg; auto | lra]. }
    rewrite existsb_exists. split.
    + intros P. destruct (existsb (fun e => base (tp e) x && base (ts e) x) es) eqn:E.
      { apply existsb_exists in E. exact E. }
      exfalso. assert (rsum (fun e => weight (tp e) x * weight (ts e) x * tw e) es = 0) as Z; [|lra].
      rewrite <- (rsum_0 es). apply rsum_ext. intros e He.
      destruct (H2 e He) as [P1 P2], (IH e He) as [I1 I2].
      assert (base (tp e) x && base (ts e) x = false) as B.
      { destruct (base (tp e) x && base (ts e) x) eqn:F; auto. assert (existsb (fun e => base (tp e) x && base (ts e) x) es = true); [|congruence].
        apply existsb_exists; eauto. }
      pose proof (weight_nonneg (tp e) x (positive_nonneg _ P1)).
      pose proof (weight_nonneg (ts e) x (positive_nonneg _ P2)).
      apply andb_false_iff in B as [B|B].
      * assert (weight (tp e) x = 0) as ->; [|ring].
        destruct (Rlt_dec 0 (weight (tp e) x)) as [L|L]; [|lra]. apply I1 in L; auto. congruence.
      * assert (weight (ts e) x = 0) as ->; [|ring].
        destruct (Rlt_dec 0 (weight (ts e) x)) as [L|L]; [|lra]. apply I2 in L; auto. congruence.
    + intros (e & He & B). apply rsum_pos; auto. exists e. split; auto.
      apply andb_true_iff in B as [B1 B2]. destruct (H2 e He) as [P1 P2], (IH e He) as [I1 I2].
      pose proof (H1 e He). simpl in *. apply Rmult_lt_0_compat; auto. apply Rmult_lt_0_compat; [apply I1|apply I2]; auto.
Qed.
Lemma weight_zero_off_base t x : base t x = false -> weight t x = 0.
Proof.
  induction t as [l|v a b|es IH] using ptree_ind2; simpl.
  - intros ->. reflexivity.
  - discriminate.
  - intros H. change (rsum (fun e => weight (tp e) x * weight (ts e) x * tw e) es = 0).
    rewrite <- (rsum_0 es). apply rsum_ext. intros e He. rewrite Forall_forall in IH. destruct (IH e He) as [I1 I2].
    assert (base (tp e) x && base (ts e) x = false) as B.
    { destruct (base (tp e) x && base (ts e) x) eqn:F; auto. rewrite <- H. symmetry. apply existsb_exists. eauto. }
    apply andb_false_iff in B as [B|B]; [rewrite I1|rewrite I2]; auto; ring.
Qed.

(** ** Sums over instantiations *)
Lemma sum_over_ext vs f g x : (forall y, (forall v, ~ In v vs -> y v = x v) -> f y = g y) -> sum_over vs f x = sum_over vs g x.
Proof.
  revert x. induction vs as [|v vs IH]; simpl; intros x H; [apply H; auto|].
  f_equal; apply IH; intros y Hy; apply H; intros w Hw; rewrite Hy by tauto; apply upd_other; intros ->; tauto.
Qed.
Lemma sum_over_ext' vs f g x : (forall y, f y = g y) -> sum_over vs f x = sum_over vs g x.
Proof. intros H. apply sum_over_ext. auto. Qed.
Lemma sum_over_app a b f x : sum_over (a ++ b) f x = sum_over a (sum_over b f) x.
Proof. revert x. induction a; simpl; intros x; auto. rewrite !IHa. reflexivity. Qed.
Lemma sum_over_plus vs f g x : sum_over vs (fun y => f y + g y) x = sum_over vs f x + sum_over vs g x.
Proof. revert x. induction vs; simpl; intros x; auto. rewrite !IHvs. lra. Qed.
Lemma sum_over_scal vs f c x : sum_over vs (fun y => c * f y) x = c * sum_over vs f x.
Proof. revert x. induction vs; simpl; intros x; auto. rewrite !IHvs. lra. Qed.
Lemma sum_over_zero vs x : sum_over vs (fun _ => 0) x = 0.
Proof. revert x. induction vs; simpl; intros x; auto. rewrite !IHvs. lra. Qed.
Lemma sum_over_rsum {A} vs (f : A -> inst -> R) l x :
  sum_over vs (fun y => rsum (fun a => f a y) l) x = rsum (fun a => sum_over vs (f a) x) l.
Proof.
  induction l as [|a l IH].
  - apply sum_over_zero.
  - rewrite rsum_cons, <- IH, <- sum_over_plus. reflexivity.
Qed.
Lemma sum_over_nonneg vs f x : (forall y, 0 <= f y) -> 0 <= sum_over vs f x.
Proof.
  intros H. revert x. induction vs; simpl; intros x; auto.
  pose proof (IHvs (upd x a true)). pose proof (IHvs (upd x a false)). lra.
Qed.
Lemma sum_over_le vs f g x : (forall y, f y <= g y) -> sum_over vs f x <= sum_over vs g x.
Proof.
  intros H. revert x. induction vs; simpl; intros x; auto.
  pose proof (IHvs (upd x a true)). pose proof (IHvs (upd x a false)). lra.
Qed.
(** A sum depends only on variables outside [vs] that f depends on. *)
Lemma sum_over_agree vs ws f x y : depends_on ws f -> (forall v, In v ws -> ~ In v vs -> x v = y v) ->
  sum_over vs f x = sum_over vs f y.
Proof.
  intros D. revert x y. induction vs as [|v vs IH]; simpl; intros x y H.
  - apply D. intros w Hw. apply H; auto.
  - f_equal; apply IH; intros w Hw N.
    + unfold upd. destruct (N.eqb w v) eqn:E; auto. apply N.eqb_neq in E. apply H; auto. intros [->|I]; auto.
    + unfold upd. destruct (N.eqb w v) eqn:E; auto. apply N.eqb_neq in E. apply H; auto. intros [->|I]; auto.
Qed.
Lemma sum_over_const vs ws f g x : depends_on ws f -> (forall v, In v ws -> ~ In v vs) ->
  sum_over vs (fun y => f y * g y) x = f x * sum_over vs g x.
Proof.
  intros D DJ. rewrite <- sum_over_scal. apply sum_over_ext. intros y Hy. f_equal. apply D.
  intros v Hv. apply Hy. auto.
Qed.
(** Factorisation: sums over disjoint variables of functions of disjoint variables. *)
Lemma sum_over_factor a b f g x : depends_on a f -> depends_on b g -> (forall v, In v a -> ~ In v b) ->
  sum_over (a ++ b) (fun y => f y * g y) x = sum_over a f x * sum_over b g x.
Proof.
  intros Df Dg DJ. rewrite sum_over_app.
  rewrite (sum_over_ext' a _ (fun y => sum_over b g x * f y)).
  - rewrite sum_over_scal. ring.
  - intros y. rewrite (sum_over_const b a f g y Df DJ). rewrite Rmult_comm. f_equal.
    apply (sum_over_agree b b g y x Dg). intros v H1 H2. contradiction.
Qed.

(** ** Counting *)
Lemma count_over_ext vs f g x : (forall y, f y = g y) -> count_over vs f x = count_over vs g x.
Proof. intros H. revert x. induction vs; simpl; intros x; [rewrite H; auto|]. rewrite !IHvs. reflexivity. Qed.
Lemma count_sum vs f x : IZR (Z.of_N (count_over vs f x)) = sum_over vs (fun y => if f y then 1 else 0) x.
Proof.
  revert x. induction vs; simpl; intros x; [destruct (f x); reflexivity|].
  rewrite N2Z.inj_add, plus_IZR, !IHvs. reflexivity.
Qed.
