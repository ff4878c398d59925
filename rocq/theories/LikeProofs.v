(** Learned parameters maximize the (smoothed) likelihood (C58). *)
From Coq Require Import Reals Lra.
From Verif Require Import Base Param Vtree VtreeProofs Spec SpecProofs Heap Manager HeapProofs SerProofs RepProofs LoadProofs
  MulProofs ReplayProofs TreeProofs Query QueryProofs MpeProofs SampleProofs Learn LearnProofs CountProofs.
Local Open Scope R_scope.

(** ** Gibbs' inequality *)
Lemma ln_below y : 0 < y -> ln y <= y - 1 /\ (ln y = y - 1 -> y = 1).
Proof.
  intros Hy. destruct (Req_dec (ln y) 0) as [E|E].
  - assert (y = 1) as ->; [|rewrite ln_1; split; auto; lra]. apply ln_inv; [auto|lra|rewrite ln_1; auto].
  - pose proof (exp_ineq1 (ln y) E) as H. rewrite exp_ln in H by auto. split; intros; lra.
Qed.
Lemma rsum_zero_all {A} (f : A -> R) l : (forall a, In a l -> 0 <= f a) -> rsum f l = 0 -> forall a, In a l -> f a = 0.
Proof.
  intros N E a Ha. pose proof (rsum_elem f l a N Ha). pose proof (N a Ha). lra.
Qed.
(** weights [c], the distribution [g] against the distribution proportional to [c] *)
Lemma gibbs (l : list (R * R)) : (forall p, In p l -> 0 < fst p /\ 0 < snd p) -> rsum snd l = 1 -> l <> [] ->
  let C := rsum fst l in
  rsum (fun p => fst p * ln (snd p)) l <= rsum (fun p => fst p * ln (fst p / C)) l /\
  (rsum (fun p => fst p * ln (snd p)) l = rsum (fun p => fst p * ln (fst p / C)) l -> forall p, In p l -> snd p = fst p / C).
Proof.
  intros HP S NE C.
  assert (0 < C) as HC. { apply rsum_pos; [intros a Ha; left; apply HP; auto|]. destruct l as [|p l']; [congruence|]. exists p. split; [left; auto|apply HP; left; auto]. }
  set (d := fun p : R * R => (snd p * C - fst p) - fst p * (ln (snd p) - ln (fst p / C))).
  assert (forall p, In p l -> 0 <= d p /\ (d p = 0 -> snd p = fst p / C)) as D.
  { intros p Hp. destruct (HP p Hp) as [A B]. unfold d.
    assert (0 < fst p / C) as Q by (apply Rdiv_lt_0_compat; auto).
    assert (ln (snd p) - ln (fst p / C) = ln (snd p / (fst p / C))) as ->.
    { unfold Rdiv at 2. rewrite ln_mult; [|auto|apply Rinv_0_lt_compat; auto]. rewrite ln_Rinv by auto. lra. }
    assert (0 < snd p / (fst p / C)) as Y by (apply Rdiv_lt_0_compat; auto).
    destruct (ln_below _ Y) as [L1 L2].
    assert (snd p * C - fst p = fst p * (snd p / (fst p / C) - 1)) as -> by (field; split; apply Rgt_not_eq; auto).
    rewrite <- Rmult_minus_distr_l. split.
    - apply Rmult_le_pos; lra.
    - intros Z. apply Rmult_integral in Z as [Z|Z]; [lra|]. specialize (L2 ltac:(lra)).
      apply (f_equal (fun z => z * (fst p / C))) in L2. unfold Rdiv at 1 in L2. rewrite Rmult_assoc, Rinv_l in L2 by (apply Rgt_not_eq; auto). lra. }
  assert (rsum d l = rsum (fun p => fst p * ln (fst p / C)) l - rsum (fun p => fst p * ln (snd p)) l) as E.
  { assert (forall l, rsum d l = C * rsum snd l - rsum fst l + (rsum (fun p => fst p * ln (fst p / C)) l - rsum (fun p => fst p * ln (snd p)) l)) as K.
    { intros l0. induction l0 as [|p l0 IH]; [simpl; ring|]. rewrite !rsum_cons, IH. unfold d. ring. }
    rewrite K, S. fold C. lra. }
  assert (0 <= rsum d l) as Z by (apply rsum_nonneg; intros; apply D; auto).
  split; [lra|]. intros EE p Hp. apply D; auto. apply (rsum_zero_all d l); auto; [intros; apply D; auto|lra].
Qed.

(** ** Products *)
Definition rprod {A} (f : A -> R) (l : list A) : R := fold_right (fun a p => f a * p) 1 l.
Lemma rprod_app {A} (f : A -> R) l1 l2 : rprod f (l1 ++ l2) = rprod f l1 * rprod f l2.
Proof. induction l1 as [|a l IH]; simpl; [lra|]. rewrite IH. lra. Qed.
Lemma rprod_pos {A} (f : A -> R) l : (forall a, In a l -> 0 < f a) -> 0 < rprod f l.
Proof. induction l as [|a l IH]; intros H; simpl; [lra|]. apply Rmult_lt_0_compat; [apply H; left; auto|apply IH; intros; apply H; right; auto]. Qed.
Lemma rprod_nonneg {A} (f : A -> R) l : (forall a, In a l -> 0 <= f a) -> 0 <= rprod f l.
Proof. induction l as [|a l IH]; intros H; simpl; [lra|]. apply Rmult_le_pos; [apply H; left; auto|apply IH; intros; apply H; right; auto]. Qed.
Lemma rprod_zero {A} (f : A -> R) l a : In a l -> f a = 0 -> rprod f l = 0.
Proof. induction l as [|b l IH]; intros [] E; simpl; [subst; rewrite E; lra|rewrite IH; auto; lra]. Qed.
Lemma ln_rprod {A} (f : A -> R) l : (forall a, In a l -> 0 < f a) -> ln (rprod f l) = rsum (fun a => ln (f a)) l.
Proof.
  induction l as [|a l IH]; intros H; simpl; [apply ln_1|]. rewrite ln_mult; [rewrite IH; auto|apply H; left; auto|apply rprod_pos]; intros; apply H; right; auto.
Qed.
Lemma rsum_swap {A B} (f : A -> B -> R) la lb : rsum (fun a => rsum (f a) lb) la = rsum (fun b => rsum (fun a => f a b) la) lb.
Proof.
  induction la as [|a la IH]; simpl; [symmetry; apply rsum_0|]. rewrite IH. symmetry. apply (rsum_plus (f a)).
Qed.
Lemma rsum_filter {A} (f : A -> R) q l : rsum f (filter q l) = rsum (fun a => if q a then f a else 0) l.
Proof. induction l as [|a l IH]; auto. simpl. destruct (q a); simpl; rewrite IH; lra. Qed.
(** a sum over a list without repetitions as a sum over a larger one *)
Lemma rsum_sub {A} (dec : forall a b : A, {a = b} + {a <> b}) (f : A -> R) l big : NoDup l -> NoDup big -> incl l big ->
  rsum f l = rsum (fun a => if in_dec dec a l then f a else 0) big.
Proof.
  intros N1 N2 I. assert (Permutation l (filter (fun a => if in_dec dec a l then true else false) big)) as PM.
  { apply NoDup_Permutation; auto; [apply NoDup_filter; auto|]. intros a. rewrite filter_In. destruct (in_dec dec a l); split; try tauto.
    - intros; split; auto.
    - intros [_ X]. discriminate. }
  rewrite (rsum_perm f _ _ PM), rsum_filter. apply rsum_ext. intros a _. destruct (in_dec dec a l); auto.
Qed.

Lemma Forall2_nth_l {A B} (R : A -> B -> Prop) l l' : Forall2 R l l' -> forall k a, nth_error l k = Some a -> exists b, nth_error l' k = Some b /\ R a b.
Proof. induction 1; intros [|k] c E; try discriminate; [injection E as <-; simpl; eauto|simpl in *; eauto]. Qed.
Lemma Forall2_nth_r {A B} (R : A -> B -> Prop) l l' : Forall2 R l l' -> forall k b, nth_error l' k = Some b -> exists a, nth_error l k = Some a /\ R a b.
Proof. induction 1; intros [|k] c E; try discriminate; [injection E as <-; simpl; eauto|simpl in *; eauto]. Qed.

(** ** The parameters an instantiation uses *)
Section Like.
Context {P : pops} (val : P -> R) (HP : pexact P val).
Notation heap := (heap P). Notation mgr := (mgr P). Notation node := (node P).
Notation Rep := (Rep val).
Context (vroot : vtree) (h : heap) (HO : heap_ok vroot h).
Context (T : nat -> ptree) (HT : forall i, (i < length h)%nat -> Rep h i (T i)).

Definition meets (x : inst) (e : elem P) : bool := base (T (e_prime e)) x && base (T (e_sub e)) x.
Fixpoint number {A} (k : nat) (l : list A) : list (nat * A) := match l with [] => [] | a :: l' => (k, a) :: number (S k) l' end.
(** node and number of the parameters on the way of [x] from node [i] down *)
Fixpoint chosen (n : nat) (x : inst) (i : nat) : list (nat * nat) :=
  match n with
  | O => []
  | S n' =>
      match nth_error h i with
      | None => []
      | Some nd =>
          match n_body nd with
          | BLit _ => []
          | BTop v _ _ => [(i, if x v then 0 else 1)%nat]
          | BDec es => flat_map (fun ke => if meets x (snd ke) then (i, fst ke) :: chosen n' x (e_prime (snd ke)) ++ chosen n' x (e_sub (snd ke)) else []) (number 0 es)
          end
      end
  end.
Lemma number_app {A} (l1 l2 : list A) : forall k, number k (l1 ++ l2) = number k l1 ++ number (k + length l1) l2.
Proof. induction l1 as [|a l IH]; intros k; simpl; [rewrite Nat.add_0_r; auto|]. rewrite IH. do 2 f_equal. f_equal. lia. Qed.
Lemma number_in {A} (l : list A) k j a : In (j, a) (number k l) <-> (k <= j)%nat /\ nth_error l (j - k) = Some a.
Proof.
  revert k. induction l as [|b l IH]; intros k; simpl.
  - split; [tauto|]. intros [_ E]. destruct (j - k)%nat; discriminate.
  - rewrite IH. split.
    + intros [E|[A1 A2]]; [injection E as -> ->; rewrite Nat.sub_diag; auto|]. split; [lia|]. replace (j - k)%nat with (S (j - S k)) by lia. auto.
    + intros [A1 A2]. destruct (Nat.eq_dec j k) as [->|Nk]; [rewrite Nat.sub_diag in A2; injection A2 as ->; auto|]. right. split; [lia|].
      replace (j - k)%nat with (S (j - S k)) in A2 by lia. auto.
Qed.
Lemma flat_map_none {A B} (f : A -> list B) l : (forall a, In a l -> f a = []) -> flat_map f l = [].
Proof. induction l as [|a l IH]; intros H; auto. simpl. rewrite (H a) by (left; auto). apply IH. intros; apply H; right; auto. Qed.
(** at most one element *)
Lemma one_meets x es : ForallOrdPairs (fun e1 e2 => forall x, base (T (e_prime e1)) x && base (T (e_prime e2)) x = false) es ->
  existsb (meets x) es = true -> exists es1 e es2, es = es1 ++ e :: es2 /\ meets x e = true /\ (forall e', In e' (es1 ++ es2) -> meets x e' = false).
Proof.
  intros D. induction D as [|e es H D IH]; simpl; [discriminate|]. destruct (meets x e) eqn:E; simpl; intros K.
  - exists [], e, es. split; auto. split; auto. intros e' He'. rewrite Forall_forall in H. specialize (H e' He' x). unfold meets in *.
    apply andb_true_iff in E as [E _]. rewrite E in H. simpl in H. rewrite H. reflexivity.
  - destruct (IH K) as (es1 & e0 & es2 & -> & A & B). exists (e :: es1), e0, es2. split; auto. split; auto. intros e' [<-|He']; auto.
Qed.
Lemma meets_none x es : existsb (meets x) es = false -> forall e, In e es -> meets x e = false.
Proof. intros E e He. destruct (meets x e) eqn:M; auto. assert (existsb (meets x) es = true) by (apply existsb_exists; eauto). congruence. Qed.

Lemma T_dec_det i nd es : nth_error h i = Some nd -> n_body nd = BDec es -> deterministic (T i) ->
  ForallOrdPairs (fun e1 e2 => forall x, base (T (e_prime e1)) x && base (T (e_prime e2)) x = false) es /\
  (forall e, In e es -> deterministic (T (e_prime e)) /\ deterministic (T (e_sub e))) /\
  (forall e, In e es -> (e_prime e < i)%nat /\ (e_sub e < i)%nat /\ vt_of h (e_prime e) = Some (false :: n_vt nd) /\ vt_of h (e_sub e) = Some (true :: n_vt nd)).
Proof.
  intros En Eb D. assert (i < length h)%nat as Hi by (apply nth_error_Some; congruence). pose proof (HT i Hi) as R.
  pose proof (HO i nd En) as NO. unfold node_ok in NO. rewrite Eb in NO. destruct NO as (_ & _ & FE). rewrite Forall_forall in FE.
  destruct (T i) as [z|v a b|tes] eqn:ET.
  - apply Rep_lit_inv in R as (nd' & E1 & E2). congruence.
  - apply Rep_top_inv in R as (nd' & pt & pf & E1 & E2 & _). congruence.
  - apply Rep_dec_inv in R as (nd' & es' & E1 & E2 & F). assert (nd' = nd) as -> by congruence. assert (es' = es) as -> by congruence.
    assert (Forall2 (fun e te => tp te = T (e_prime e) /\ ts te = T (e_sub e)) es tes) as F'.
    { eapply Forall2_impl_in; [|exact F]. intros e te He _ (R1 & R2 & _). destruct (FE e He) as (L1 & L2 & _).
      split; eapply Rep_fun; eauto; apply HT; lia. }
    apply all_nodes_dec in D as [D1 D2]. split; [|split].
    + clear - D1 F'. revert D1. induction F' as [|e te es tes [A B] F' IH]; intros D1; [constructor|]. inversion D1 as [|? ? Q1 Q2]; subst. constructor; auto.
      clear - A F' Q1. induction F' as [|e' te' es tes [A' B'] F' IH]; [constructor|]. inversion Q1; subst. constructor; auto. intros x. rewrite <- A, <- A'. auto.
    + clear - D2 F'. induction F' as [|e te es tes [A B] F' IH]; intros e' []; inversion D2 as [|? ? [Q1 Q2] Q3]; subst.
      * rewrite <- A, <- B. auto.
      * apply IH; auto.
    + intros e He. apply FE; auto.
Qed.
Lemma T_dec_base i nd es x : nth_error h i = Some nd -> n_body nd = BDec es -> base (T i) x = existsb (meets x) es.
Proof. intros En Eb. rewrite (T_dec val vroot h HO T HT i nd es x En Eb). reflexivity. Qed.
Lemma chosen_dec n x i nd es : nth_error h i = Some nd -> n_body nd = BDec es -> deterministic (T i) -> base (T i) x = true ->
  exists es1 e es2, es = es1 ++ e :: es2 /\ meets x e = true /\ (forall e', In e' (es1 ++ es2) -> meets x e' = false) /\
    chosen (S n) x i = (i, length es1) :: chosen n x (e_prime e) ++ chosen n x (e_sub e).
Proof.
  intros En Eb D B. destruct (T_dec_det i nd es En Eb D) as (DX & _ & _). rewrite (T_dec_base i nd es x En Eb) in B.
  destruct (one_meets x es DX B) as (es1 & e & es2 & -> & M & NM). exists es1, e, es2. do 3 (split; auto). cbn [chosen]. rewrite En, Eb, number_app, flat_map_app.
  cbn [number flat_map snd fst]. rewrite M, Nat.add_0_l.
  assert (forall l k, (forall e', In e' l -> meets x e' = false) ->
    flat_map (fun ke => if meets x (snd ke) then (i, fst ke) :: chosen n x (e_prime (snd ke)) ++ chosen n x (e_sub (snd ke)) else []) (number k l) = []) as Z.
  { intros l k H. apply flat_map_none. intros [j e'] Hj. apply number_in in Hj as [_ Hj]. apply nth_error_In in Hj. cbn [snd]. rewrite (H e' Hj). reflexivity. }
  rewrite (Z es1), (Z es2) by (intros e' He'; apply NM, in_or_app; auto). rewrite app_nil_r. reflexivity.
Qed.
Lemma chosen_off n x i : (i < length h)%nat -> base (T i) x = false -> chosen n x i = [].
Proof.
  intros Hi B. destruct n as [|n]; auto. cbn [chosen]. destruct (nth_error h i) as [nd|] eqn:En; auto. destruct (n_body nd) as [l|v pt pf|es] eqn:Eb; auto.
  - destruct (T_top val h T HT i nd v pt pf En Eb) as (a & b & E). rewrite E in B. discriminate.
  - rewrite (T_dec_base i nd es x En Eb) in B. apply flat_map_none. intros [j e] Hj. apply number_in in Hj as [_ Hj]. apply nth_error_In in Hj.
    cbn [snd]. rewrite (meets_none x es B e Hj). reflexivity.
Qed.
Definition par (g : nat -> list R) (jk : nat * nat) : R := nth (snd jk) (g (fst jk)) 0.
Lemma nth_app_len (l1 l2 : list R) a : nth (length l1) (l1 ++ a :: l2) 0 = a.
Proof. rewrite app_nth2, Nat.sub_diag; auto. Qed.
Lemma Forall2_mid {A B} (R : A -> B -> Prop) l1 a l2 l : Forall2 R (l1 ++ a :: l2) l -> exists m1 b m2, l = m1 ++ b :: m2 /\ length m1 = length l1 /\ Forall2 R l1 m1 /\ R a b /\ Forall2 R l2 m2.
Proof.
  intros F. apply Forall2_app_inv_l in F as (m1 & m' & F1 & F2 & ->). inversion F2; subst. exists m1, y, l'. split; auto. split; auto.
  clear - F1. induction F1; simpl; auto.
Qed.
Lemma chosen_weight g x : forall n i t', (i < n)%nat -> (i < length h)%nat -> relab g h i t' -> deterministic (T i) -> base (T i) x = true ->
  weight t' x = rprod (par g) (chosen n x i).
Proof.
  induction n as [|n IH]; intros i t' Hn Hi RL D B; [lia|].
  inversion RL as [i0 nd l E1 E2|i0 nd v pt pf a b E1 E2 E3|i0 nd es tes tes' E1 E2 F EW PM]; subst.
  - rewrite (T_lit val h T HT i nd l E1 E2) in B. cbn [chosen]. rewrite E1, E2. simpl in *. rewrite B. reflexivity.
  - cbn [chosen]. rewrite E1, E2. simpl. unfold par. cbn [fst snd]. rewrite E3. destruct (x v); simpl; lra.
  - destruct (T_dec_det i nd es E1 E2 D) as (_ & DC & VC).
    destruct (chosen_dec n x i nd es E1 E2 D B) as (es1 & e & es2 & -> & M & NM & ->).
    cbn [rprod fold_right]. fold (rprod (par g) (chosen n x (e_prime e) ++ chosen n x (e_sub e))). rewrite rprod_app.
    apply Forall2_mid in F as (m1 & te & m2 & -> & LM & F1 & [R1 R2] & F2).
    assert (In e (es1 ++ e :: es2)) as He by (apply in_or_app; right; left; auto).
    destruct (DC e He) as [D1 D2]. destruct (VC e He) as (V1 & V2 & _ & _). unfold meets in M. apply andb_true_iff in M as [M1 M2].
    rewrite <- (IH (e_prime e) (tp te) ltac:(lia) ltac:(lia) R1 D1 M1), <- (IH (e_sub e) (ts te) ltac:(lia) ltac:(lia) R2 D2 M2).
    change (weight (TDec tes') x) with (rsum (fun e => weight (tp e) x * weight (ts e) x * tw e) tes').
    rewrite <- (rsum_perm _ _ _ PM), rsum_app, rsum_cons.
    assert (forall l l', Forall2 (fun e te => relab g h (e_prime e) (tp te) /\ relab g h (e_sub e) (ts te)) l l' -> (forall e', In e' l -> meets x e' = false) -> incl l (es1 ++ e :: es2) ->
       rsum (fun e => weight (tp e) x * weight (ts e) x * tw e) l' = 0) as Z.
    { intros l l' F. induction F as [|e' te' l l' [Q1 Q2] F IHF]; intros Hl Il; auto. rewrite rsum_cons, IHF; [|intros; apply Hl; right; auto|intros y Hy; apply Il; right; auto].
      assert (In e' (es1 ++ e :: es2)) as He' by (apply Il; left; auto). destruct (VC e' He') as (W1 & W2 & _ & _).
      pose proof (Hl e' (or_introl eq_refl)) as MM. unfold meets in MM. apply andb_false_iff in MM as [MM|MM].
      - rewrite (weight_zero_off_base (tp te')); [ring|]. rewrite (proj1 (relab_facts val g h _ _ _ (HT (e_prime e') ltac:(lia)) Q1)). auto.
      - rewrite (weight_zero_off_base (ts te')); [ring|]. rewrite (proj1 (relab_facts val g h _ _ _ (HT (e_sub e') ltac:(lia)) Q2)). auto. }
    rewrite (Z es1 m1 F1), (Z es2 m2 F2).
    + unfold par. cbn [fst snd]. rewrite <- EW, map_app. cbn [map]. rewrite <- LM, <- (map_length tw m1), nth_app_len. ring.
    + intros e' H'. apply NM, in_or_app; auto.
    + intros e' H'. apply in_or_app; right; right; auto.
    + intros e' H'. apply NM, in_or_app; auto.
    + intros e' H'. apply in_or_app; auto.
Qed.
(** which parameters: those of the nodes on the way *)
Definition param_of (x : inst) (nd : node) (k : nat) : Prop :=
  match n_body nd with
  | BLit _ => False
  | BTop v _ _ => k = (if x v then 0 else 1)%nat
  | BDec es => exists e, nth_error es k = Some e /\ meets x e = true
  end.
Lemma sat_iff i x : (i < length h)%nat -> (sat val h i x <-> base (T i) x = true).
Proof. apply (sat_T val h T HT). Qed.
Lemma hits_step x i c : hits val h i x c -> c = i \/ exists nd es e, nth_error h i = Some nd /\ n_body nd = BDec es /\ In e es /\ meets x e = true /\
  (hits val h (e_prime e) x c \/ hits val h (e_sub e) x c).
Proof.
  intros H. induction H as [|p nd es e c H IH En Eb He S1 S2 C]; auto. right.
  assert ((e_prime e < length h)%nat /\ (e_sub e < length h)%nat) as [L1 L2].
  { pose proof (HO p nd En) as NO. unfold node_ok in NO. rewrite Eb in NO. destruct NO as (_ & _ & FE). rewrite Forall_forall in FE. destruct (FE e He) as (A & B & _).
    assert (p < length h)%nat by (apply nth_error_Some; congruence). lia. }
  destruct IH as [->|(nd' & es' & e' & E1 & E2 & H1 & M & HH)].
  - exists nd, es, e. do 3 (split; auto). split. { unfold meets. apply andb_true_iff. split; apply sat_iff; auto. }
    destruct C as [C|C]; subst c; [left|right]; constructor.
  - exists nd', es', e'. do 4 (split; auto). destruct HH as [HH|HH]; [left|right]; eapply hits_elem; eauto.
Qed.
Lemma hits_down x i nd es e c : nth_error h i = Some nd -> n_body nd = BDec es -> In e es -> meets x e = true -> (e_prime e < length h)%nat -> (e_sub e < length h)%nat ->
  hits val h (e_prime e) x c \/ hits val h (e_sub e) x c -> hits val h i x c.
Proof.
  intros En Eb He M L1 L2 H. unfold meets in M. apply andb_true_iff in M as [M1 M2].
  assert (hits val h i x (e_prime e)) as H1 by (eapply hits_elem; [apply hits_root|exact En|exact Eb|exact He|apply sat_iff; auto|apply sat_iff; auto|auto]).
  assert (hits val h i x (e_sub e)) as H2 by (eapply hits_elem; [apply hits_root|exact En|exact Eb|exact He|apply sat_iff; auto|apply sat_iff; auto|auto]).
  destruct H as [H|H]; induction H; auto; eapply hits_elem; eauto.
Qed.
Lemma chosen_in x : forall n i j k, (i < n)%nat -> (i < length h)%nat ->
  (In (j, k) (chosen n x i) <-> hits val h i x j /\ exists nd, nth_error h j = Some nd /\ param_of x nd k).
Proof.
  induction n as [|n IH]; intros i j k Hn Hi; [lia|]. cbn [chosen].
  destruct (nth_error h i) as [nd|] eqn:En; [|apply nth_error_None in En; lia]. destruct (n_body nd) as [l|v pt pf|es] eqn:Eb.
  - split; [intros []|]. intros (H & nd' & E & Q). apply hits_step in H as [->|(nd2 & es & e & E2 & Eb2 & _)]; [|congruence].
    assert (nd' = nd) as -> by congruence. unfold param_of in Q. rewrite Eb in Q. destruct Q.
  - split.
    + intros [E|[]]. injection E as <- <-. split; [constructor|]. exists nd. split; auto. unfold param_of. rewrite Eb. auto.
    + intros (H & nd' & E & Q). apply hits_step in H as [->|(nd2 & es & e & E2 & Eb2 & _)]; [|congruence].
      assert (nd' = nd) as -> by congruence. unfold param_of in Q. rewrite Eb in Q. subst. left. auto.
  - pose proof (HO i nd En) as NO. unfold node_ok in NO. rewrite Eb in NO. destruct NO as (_ & _ & FE). rewrite Forall_forall in FE.
    rewrite in_flat_map. split.
    + intros ((q & e) & Hq & H). cbn [fst snd] in H. apply number_in in Hq as [_ Hq]. rewrite Nat.sub_0_r in Hq. pose proof (nth_error_In _ _ Hq) as He. destruct (FE e He) as (A & B & _).
      destruct (meets x e) eqn:M; [|destruct H]. destruct H as [H|H].
      * injection H as <- <-. split; [constructor|]. exists nd. split; auto. unfold param_of. rewrite Eb. eauto.
      * apply in_app_or in H. destruct H as [H|H]; apply IH in H as [H1 H2]; try lia; (split; [|exact H2]); apply (hits_down x i nd es e j En Eb He M); auto; lia.
    + intros (H & nd' & E & Q). apply hits_step in H as [->|(nd2 & es2 & e & E2 & Eb2 & He & M & HH)].
      * assert (nd' = nd) as -> by congruence. unfold param_of in Q. rewrite Eb in Q. destruct Q as (e & Ek & M). exists (k, e). split; [apply number_in; split; [lia|rewrite Nat.sub_0_r; auto]|].
        cbn [fst snd]. rewrite M. left. auto.
      * assert (nd2 = nd) as -> by congruence. assert (es2 = es) as -> by congruence. destruct (FE e He) as (A & B & _).
        apply In_nth_error in He as [q Eq]. exists (q, e). split; [apply number_in; split; [lia|rewrite Nat.sub_0_r; auto]|]. cbn [fst snd]. rewrite M. right. apply in_or_app.
        destruct HH as [HH|HH]; [left|right]; apply IH; eauto; lia.
Qed.
Lemma hits_reach x i c : hits val h i x c -> reach h i c.
Proof.
  intros H. induction H as [|p nd es e c H IH En Eb He S1 S2 C]; [constructor|]. eapply reach_snoc; [exact IH|exact En|]. apply in_children. eauto 10.
Qed.
Lemma chosen_nodup x : forall n i, (i < n)%nat -> (i < length h)%nat -> deterministic (T i) -> NoDup (chosen n x i).
Proof.
  induction n as [|n IH]; intros i Hn Hi D; [lia|]. destruct (base (T i) x) eqn:B; [|rewrite chosen_off; auto; constructor].
  destruct (nth_error h i) as [nd|] eqn:En; [|apply nth_error_None in En; lia]. destruct (n_body nd) as [l|v pt pf|es] eqn:Eb.
  - cbn [chosen]. rewrite En, Eb. constructor.
  - cbn [chosen]. rewrite En, Eb. constructor; [intros []|constructor].
  - destruct (chosen_dec n x i nd es En Eb D B) as (es1 & e & es2 & Ees & M & NM & ->). destruct (T_dec_det i nd es En Eb D) as (_ & DC & VC).
    assert (In e es) as He by (rewrite Ees; apply in_or_app; right; left; auto). destruct (DC e He) as [D1 D2]. destruct (VC e He) as (L1 & L2 & V1 & V2).
    assert (forall c b j k, (c < i)%nat -> vt_of h c = Some (b :: n_vt nd) -> In (j, k) (chosen n x c) -> exists u, vt_of h j = Some (u ++ b :: n_vt nd)) as VT.
    { intros c b j k Hc Vc H. apply chosen_in in H as [H _]; try lia. apply hits_reach in H. destruct (reach_vt _ _ _ _ HO H _ Vc) as [u Hu]. eauto. }
    constructor.
    + intros H. apply in_app_or in H. assert (vt_of h i = Some (n_vt nd)) as Vi by (unfold vt_of; rewrite En; auto).
      destruct H as [H|H]; [apply (VT _ _ _ _ L1 V1) in H as [u Hu]|apply (VT _ _ _ _ L2 V2) in H as [u Hu]]; rewrite Vi in Hu; injection Hu as Hu; apply (f_equal (@length bool)) in Hu; rewrite app_length in Hu; simpl in Hu; lia.
    + apply NoDup_app_intro; [apply IH; auto; lia|apply IH; auto; lia|]. intros [j k] H1 H2.
      apply (VT _ _ _ _ L1 V1) in H1 as [u Hu]. apply (VT _ _ _ _ L2 V2) in H2 as [u' Hu']. rewrite Hu in Hu'. injection Hu' as E.
      assert (forall (a b : path) p x y, a ++ x :: p = b ++ y :: p -> x = y) as K.
      { intros a b p0 x0 y0 E0. assert (length a = length b) by (apply (f_equal (@length bool)) in E0; rewrite !app_length in E0; simpl in E0; lia).
        revert b E0 H. induction a as [|w a IHa]; intros [|w' b] E0 H; try discriminate; [simpl in E0; congruence|]. injection E0 as _ E0. apply (IHa b); auto. }
      apply K in E. discriminate.
Qed.

(** ** The objective *)
Lemma relab_all g Q i j t' : relab g h i t' -> all_nodes Q t' -> reach h i j -> exists t'', relab g h j t'' /\ all_nodes Q t''.
Proof.
  intros R A K. revert t' R A. induction K as [i|i nd c j E Hc K IH]; intros t' R A; [eauto|].
  apply in_children in Hc as (es & e & Eb & He & C). inversion R as [i0 nd' l E1 E2|i0 nd' v pt pf a b E1 E2 E3|i0 nd' es' tes tes' E1 E2 F EW PM]; subst; try congruence.
  assert (nd' = nd) as -> by congruence. assert (es' = es) as -> by congruence.
  apply In_nth_error in He as [k Ek]. destruct (Forall2_nth_l _ _ _ F _ _ Ek) as (te & Et & R1 & R2). apply nth_error_In in Et.
  apply all_nodes_dec in A as [_ A]. rewrite Forall_forall in A. destruct (A te (Permutation_in _ PM Et)) as [A1 A2]. destruct C as [C|C]; subst c; eapply IH; eauto.
Qed.
Lemma relab_sub g i j t' : relab g h i t' -> reach h i j -> exists t'', relab g h j t''.
Proof.
  intros R K. revert t' R. induction K as [i|i nd c j E Hc K IH]; intros t' R; [eauto|].
  apply in_children in Hc as (es & e & Eb & He & C). inversion R as [i0 nd' l E1 E2|i0 nd' v pt pf a b E1 E2 E3|i0 nd' es' tes tes' E1 E2 F EW PM]; subst; try congruence.
  assert (nd' = nd) as -> by congruence. assert (es' = es) as -> by congruence.
  apply In_nth_error in He as [k Ek]. destruct (Forall2_nth_l _ _ _ F _ _ Ek) as (te & _ & R1 & R2). destruct C as [C|C]; subst c; eapply IH; eauto.
Qed.
Lemma relab_len g i t' nd : relab g h i t' -> nth_error h i = Some nd -> match n_body nd with BLit _ => True | _ => length (g i) = arity nd end.
Proof.
  intros R E. unfold arity. inversion R as [i0 nd' l E1 E2|i0 nd' v pt pf a b E1 E2 E3|i0 nd' es' tes tes' E1 E2 F EW PM]; subst; assert (nd' = nd) as -> by congruence; rewrite E2; auto.
  - rewrite E3. auto.
  - rewrite <- EW, map_length. clear - F. induction F; simpl; auto.
Qed.
Context (root : nat) (L : list nat) (SO : ser_of h root L) (D : deterministic (T root)) (recs : list inst).
Definition ar (j : nat) : nat := match nth_error h j with Some nd => arity nd | None => 0%nat end.
Definition params : list (nat * nat) := flat_map (fun j => map (pair j) (seq 0 (ar j))) L.
Definition pick (x : inst) : list (nat * nat) := chosen (S root) x root.
Definition dec2 : forall a b : nat * nat, {a = b} + {a <> b}.
Proof. decide equality; apply Nat.eq_dec. Defined.
Definition cnt (p : nat * nat) : R := rsum (fun x => if in_dec dec2 p (pick x) then 1 else 0) recs.
Lemma root_lt : (root < length h)%nat.
Proof.
  destruct (so_head _ _ _ SO) as [l E]. assert (In root L) as H by (rewrite E; left; auto). exact (ser_lt _ h HO root L SO root H).
Qed.
Lemma params_in j k : In (j, k) params <-> In j L /\ (k < ar j)%nat.
Proof.
  unfold params. rewrite in_flat_map. split.
  - intros (i & Hi & H). apply in_map_iff in H as (q & E & Hq). injection E as -> ->. apply in_seq in Hq. split; auto. lia.
  - intros [H1 H2]. exists j. split; auto. apply in_map, in_seq. lia.
Qed.
Lemma params_nodup : NoDup params.
Proof.
  unfold params. pose proof (so_nodup _ _ _ SO) as N. clear - N. induction N as [|j l H N IH]; [constructor|]. simpl. apply NoDup_app_intro; auto.
  - apply FinFun.Injective_map_NoDup; [intros a b E; congruence|apply seq_NoDup].
  - intros [a b] H1 H2. apply in_map_iff in H1 as (q & E & _). injection E as -> ->. apply in_flat_map in H2 as (i & Hi & H2). apply in_map_iff in H2 as (q' & E & _). congruence.
Qed.
Lemma pick_in x j k : In (j, k) (pick x) <-> hits val h root x j /\ exists nd, nth_error h j = Some nd /\ param_of x nd k.
Proof. apply chosen_in; [lia|apply root_lt]. Qed.
Lemma pick_params x : incl (pick x) params.
Proof.
  intros [j k] H. apply pick_in in H as [H1 (nd & E & Q)]. apply params_in. split; [apply (so_in _ _ _ SO), (hits_reach x); auto|].
  unfold ar. rewrite E. unfold param_of in Q. unfold arity. destruct (n_body nd); [tauto| |].
  - subst. destruct (x v); lia.
  - destruct Q as (e & Q & _). apply nth_error_Some. congruence.
Qed.
Lemma pick_weight g t' x : relab g h root t' -> base (T root) x = true -> weight t' x = rprod (par g) (pick x).
Proof. intros R B. apply chosen_weight; auto using root_lt. Qed.
Lemma par_pos g t' p : relab g h root t' -> dists g h root -> In p params -> 0 < par g p.
Proof.
  destruct p as [j k]. intros R DG H. apply params_in in H as [H1 H2]. apply (so_in _ _ _ SO) in H1. unfold ar in H2. destruct (nth_error h j) as [nd|] eqn:E; [|lia].
  destruct (relab_sub g root j t' R H1) as [t'' R']. pose proof (relab_len g j t'' nd R' E) as LE. specialize (DG j nd H1 E). unfold arity in H2, LE. unfold par. cbn [fst snd].
  destruct (n_body nd); [lia| |]; destruct DG as [DG _]; rewrite Forall_forall in DG; apply DG, nth_In; lia.
Qed.
(** log-likelihood of the records in the support *)
Definition loglik (t' : ptree) : R := rsum (fun x => if base t' x then ln (weight t' x) else 0) recs.
Lemma loglik_sum g t' : relab g h root t' -> dists g h root -> loglik t' = rsum (fun p => cnt p * ln (par g p)) params.
Proof.
  intros R DG. unfold loglik.
  transitivity (rsum (fun x => rsum (fun p => if in_dec dec2 p (pick x) then ln (par g p) else 0) params) recs).
  - apply rsum_ext. intros x _. rewrite (proj1 (relab_facts val g h _ _ _ (HT root root_lt) R)).
    rewrite <- (rsum_sub dec2 (fun p => ln (par g p)) (pick x) params); [|apply chosen_nodup; auto using root_lt|apply params_nodup|apply pick_params].
    destruct (base (T root) x) eqn:B.
    + rewrite (pick_weight g t' x R B). apply ln_rprod. intros p Hp. eapply par_pos; eauto. apply (pick_params x); auto.
    + unfold pick. rewrite chosen_off; auto. apply root_lt.
  - rewrite rsum_swap. apply rsum_ext. intros p _. unfold cnt. rewrite <- rsum_scal_r. apply rsum_ext. intros x _. destruct (in_dec dec2 p (pick x)); lra.
Qed.
(** the logarithm of the prior: every parameter to the power [alpha] *)
Definition prior (alpha : R) (g : nat -> list R) : R :=
  alpha * rsum (fun i => match nth_error h i with Some nd => match n_body nd with BLit _ => 0 | _ => rsum ln (g i) end | None => 0 end) L.
Lemma rsum_nth (F : R -> R) l : rsum F l = rsum (fun k => F (nth k l 0)) (seq 0 (length l)).
Proof.
  induction l as [|a l IH]; auto. cbn [length seq]. rewrite !rsum_cons, IH. f_equal. rewrite <- seq_shift, rsum_map. reflexivity.
Qed.
Lemma rsum_params (F : nat * nat -> R) : rsum F params = rsum (fun j => rsum (fun k => F (j, k)) (seq 0 (ar j))) L.
Proof.
  unfold params. clear. induction L as [|j l IH]; auto. simpl. rewrite rsum_app, IH, rsum_map. reflexivity.
Qed.
Lemma prior_sum alpha g t' : relab g h root t' -> prior alpha g = rsum (fun p => alpha * ln (par g p)) params.
Proof.
  intros R. unfold prior. rewrite rsum_scal. f_equal. rewrite rsum_params. apply rsum_ext. intros j Hj. unfold ar, par. cbn [fst snd].
  apply (so_in _ _ _ SO) in Hj. destruct (relab_sub g root j t' R Hj) as [t'' R']. destruct (nth_error h j) as [nd|] eqn:E; auto.
  pose proof (relab_len g j t'' nd R' E) as LE. unfold arity in *. destruct (n_body nd); auto; rewrite rsum_nth, LE; reflexivity.
Qed.
(** the counts of the learner *)
Lemma ncount_sum {A} (Q : A -> Prop) (q : A -> bool) l n : ncount Q l n -> (forall a, Q a <-> q a = true) -> rn n = rsum (fun a => if q a then 1 else 0) l.
Proof.
  intros C H. induction C as [|a l n Ha C IH|a l n Ha C IH]; auto.
  - unfold rn in *. rewrite rsum_cons, <- IH. apply H in Ha. rewrite Ha, N2Z.inj_succ, succ_IZR. lra.
  - rewrite rsum_cons, <- IH. destruct (q a) eqn:E; [|lra]. exfalso. apply Ha, H. auto.
Qed.
Lemma count_cnt j nd ns k n : In j L -> nth_error h j = Some nd -> node_counts val h root recs j nd ns -> nth_error ns k = Some n -> rn n = cnt (j, k).
Proof.
  intros Hj E NC Ek. unfold cnt.
  assert (exists Q, ncount Q recs n /\ forall x, Q x <-> In (j, k) (pick x)) as (Q & C & HQ).
  { unfold node_counts in NC. destruct (n_body nd) as [l|v pt pf|es] eqn:Eb.
    - subst. destruct k; discriminate.
    - destruct NC as (a & b & -> & A & B). destruct k as [|[|k]]; [| |destruct k; discriminate]; injection Ek as <-.
      + exists (fun x => hits val h root x j /\ x v = true). split; auto. intros x. rewrite pick_in. apply and_iff_compat_l. split.
        * intros Ev. exists nd. split; auto. unfold param_of. rewrite Eb, Ev. auto.
        * intros (nd' & E' & Q). assert (nd' = nd) as -> by congruence. unfold param_of in Q. rewrite Eb in Q. destruct (x v); [auto|discriminate].
      + exists (fun x => hits val h root x j /\ x v = false). split; auto. intros x. rewrite pick_in. apply and_iff_compat_l. split.
        * intros Ev. exists nd. split; auto. unfold param_of. rewrite Eb, Ev. auto.
        * intros (nd' & E' & Q). assert (nd' = nd) as -> by congruence. unfold param_of in Q. rewrite Eb in Q. destruct (x v); [discriminate|auto].
    - destruct (Forall2_nth_r _ _ _ NC _ _ Ek) as (e & Ee & C). exists (fun x => hits val h root x j /\ sat val h (e_prime e) x /\ sat val h (e_sub e) x). split; auto.
      intros x. rewrite pick_in. apply and_iff_compat_l.
      pose proof (HO j nd E) as NO. unfold node_ok in NO. rewrite Eb in NO. destruct NO as (_ & _ & FE). rewrite Forall_forall in FE. destruct (FE e (nth_error_In _ _ Ee)) as (A & B & _).
      assert (j < length h)%nat by (apply nth_error_Some; congruence). rewrite !sat_iff by lia. split.
      + intros [M1 M2]. exists nd. split; auto. unfold param_of. rewrite Eb. exists e. split; auto. unfold meets. rewrite M1, M2. auto.
      + intros (nd' & E' & Q). assert (nd' = nd) as -> by congruence. unfold param_of in Q. rewrite Eb in Q. destruct Q as (e' & Ee' & M). assert (e' = e) as -> by congruence.
        apply andb_true_iff. auto. }
  rewrite (ncount_sum Q (fun x => if in_dec dec2 (j, k) (pick x) then true else false) recs n C).
  - apply rsum_ext. intros x _. destruct (in_dec dec2 (j, k) (pick x)); auto.
  - intros x. rewrite HQ. destruct (in_dec dec2 (j, k) (pick x)); split; auto; discriminate.
Qed.
Section Best.
Context (alpha : R) (f : nat -> list R) (t' : ptree) (RF : relab f h root t').
Context (HF : forall i nd, reach h root i -> nth_error h i = Some nd -> exists ns, node_counts val h root recs i nd ns /\ f i = freqs alpha ns).
Context (HS : forall i nd ns, reach h root i -> nth_error h i = Some nd -> node_counts val h root recs i nd ns -> Forall (fun n => 0 < rn n + alpha) ns).
Lemma freqs_dist ns : ns <> [] -> Forall (fun n => 0 < rn n + alpha) ns -> dist (freqs alpha ns).
Proof.
  intros NE F. set (C := rsum (fun k => rn k + alpha) ns).
  assert (0 < C) as HC. { rewrite Forall_forall in F. apply rsum_pos; [intros a Ha; left; auto|]. destruct ns as [|n ns]; [congruence|]. exists n. split; [left; auto|apply F; left; auto]. }
  split.
  - unfold freqs. fold C. apply Forall_map. eapply Forall_impl; [|exact F]. intros n Hn. apply Rdiv_lt_0_compat; auto.
  - unfold freqs. fold C. rewrite rsum_map. unfold Rdiv. rewrite rsum_scal_r. fold C. apply Rinv_r. lra.
Qed.
Lemma learned_dists : dists f h root.
Proof.
  intros j nd Hj E. destruct (HF j nd Hj E) as (ns & NC & Ef). pose proof (HS j nd ns Hj E NC) as S. pose proof (node_counts_length _ _ _ _ _ _ _ NC) as LE.
  pose proof (HO j nd E) as NO. unfold node_ok in NO. unfold arity in LE. destruct (n_body nd) as [l|v pt pf|es]; auto; rewrite Ef; apply freqs_dist; auto.
  - destruct ns; [discriminate|congruence].
  - destruct NO as (NE & _). destruct ns; [|congruence]. destruct es; [congruence|discriminate].
Qed.
Lemma best_at g t'' j : relab g h root t'' -> dists g h root -> In j L ->
  rsum (fun k => (cnt (j, k) + alpha) * ln (par g (j, k))) (seq 0 (ar j)) <= rsum (fun k => (cnt (j, k) + alpha) * ln (par f (j, k))) (seq 0 (ar j)) /\
  (rsum (fun k => (cnt (j, k) + alpha) * ln (par g (j, k))) (seq 0 (ar j)) = rsum (fun k => (cnt (j, k) + alpha) * ln (par f (j, k))) (seq 0 (ar j)) ->
   forall nd, nth_error h j = Some nd -> match n_body nd with BLit _ => True | _ => g j = f j end).
Proof.
  intros RG DG Hj. pose proof Hj as HjL. apply (so_in _ _ _ SO) in Hj.
  destruct (nth_error h j) as [nd|] eqn:E; [|unfold ar; rewrite E; simpl; split; [lra|discriminate]].
  destruct (HF j nd Hj E) as (ns & NC & Ef). pose proof (HS j nd ns Hj E NC) as S. pose proof (node_counts_length _ _ _ _ _ _ _ NC) as LE.
  destruct (relab_sub g root j t'' RG Hj) as [u RU]. pose proof (relab_len g j u nd RU E) as LG. pose proof (DG j nd Hj E) as DGj.
  assert (ar j = length ns) as EA by (unfold ar; rewrite E; auto).
  assert (forall k, (k < ar j)%nat -> cnt (j, k) + alpha = nth k (map (fun n => rn n + alpha) ns) 0) as EC.
  { intros k Hk. destruct (nth_error ns k) as [n|] eqn:En; [|apply nth_error_None in En; lia].
    rewrite <- (count_cnt j nd ns k n HjL E NC En). symmetry. apply nth_error_nth. rewrite nth_error_map, En. reflexivity. }
  destruct (Nat.eq_dec (ar j) 0) as [Z|NZ].
  - rewrite Z. simpl. split; [lra|]. intros _ nd' E'. injection E' as <-. pose proof (HO j nd E) as NO. unfold node_ok in NO. rewrite EA in Z. rewrite Z in LE. unfold arity in LE.
    destruct (n_body nd) as [l|v pt pf|es]; auto; [discriminate|]. destruct NO as (NE & _). destruct es; [congruence|discriminate].
  - assert (length (g j) = ar j /\ dist (g j)) as [LG' [DG1 DG2]]. { rewrite EA, LE. unfold arity in *. destruct (n_body nd); [simpl in LE; lia|split; auto..]. }
    set (l := map (fun k => (cnt (j, k) + alpha, par g (j, k))) (seq 0 (ar j))).
    assert (forall p, In p l -> 0 < fst p /\ 0 < snd p) as HPos.
    { intros p Hp. apply in_map_iff in Hp as (k & <- & Hk). apply in_seq in Hk. cbn [fst snd]. split.
      - rewrite EC by lia. rewrite Forall_forall in S. assert (In (nth k (map (fun n => rn n + alpha) ns) 0) (map (fun n => rn n + alpha) ns)) as K by (apply nth_In; rewrite map_length; lia).
        apply in_map_iff in K as (n & <- & Hn). auto.
      - unfold par. cbn [fst snd]. rewrite Forall_forall in DG1. apply DG1, nth_In. lia. }
    assert (rsum snd l = 1) as H1. { unfold l. rewrite rsum_map. cbn [snd]. unfold par. cbn [fst snd]. rewrite <- LG'. rewrite <- (rsum_nth (fun a => a)). exact DG2. }
    assert (l <> []) as NE. { unfold l. destruct (ar j); [lia|]. discriminate. }
    assert (rsum fst l = rsum (fun n => rn n + alpha) ns) as H2.
    { unfold l. rewrite rsum_map. cbn [fst]. rewrite (rsum_ext _ (fun k => nth k (map (fun n => rn n + alpha) ns) 0)) by (intros k Hk; apply in_seq in Hk; apply EC; lia).
      replace (ar j) with (length (map (fun n => rn n + alpha) ns)) by (rewrite map_length; auto). rewrite <- (rsum_nth (fun a => a)), rsum_map. reflexivity. }
    assert (forall k, (k < ar j)%nat -> par f (j, k) = (cnt (j, k) + alpha) / rsum fst l) as EF.
    { intros k Hk. unfold par. cbn [fst snd]. rewrite Ef, EC, H2 by auto. unfold freqs.
      destruct (nth_error ns k) as [n|] eqn:En; [|apply nth_error_None in En; lia].
      rewrite (nth_error_nth (map (fun n => rn n + alpha) ns) k 0 (x := rn n + alpha)) by (rewrite nth_error_map, En; reflexivity).
      apply nth_error_nth. rewrite nth_error_map, En. reflexivity. }
    destruct (gibbs l HPos H1 NE) as [G1 G2]. unfold l in G1 at 1 3. unfold l in G2 at 1 3. rewrite !rsum_map in G1, G2. cbn [fst snd] in G1, G2.
    rewrite (rsum_ext (fun k => (cnt (j, k) + alpha) * ln (par f (j, k))) (fun k => (cnt (j, k) + alpha) * ln ((cnt (j, k) + alpha) / rsum fst l))) by (intros k Hk; apply in_seq in Hk; rewrite EF by lia; auto).
    split; [exact G1|]. intros EE nd' E'. injection E' as <-. specialize (G2 EE).
    assert (g j = f j) as K; [|destruct (n_body nd); auto].
    apply (nth_ext _ _ 0 0); [rewrite LG', Ef; unfold freqs; rewrite map_length; auto|]. intros k Hk. rewrite LG' in Hk.
    change (par g (j, k) = par f (j, k)). rewrite EF by auto. apply (G2 (cnt (j, k) + alpha, par g (j, k))). unfold l. apply in_map_iff. exists k. split; auto. apply in_seq. lia.
Qed.
Lemma objective_sum g t'' : relab g h root t'' -> dists g h root -> loglik t'' + prior alpha g = rsum (fun j => rsum (fun k => (cnt (j, k) + alpha) * ln (par g (j, k))) (seq 0 (ar j))) L.
Proof.
  intros R DG. rewrite (loglik_sum g t'' R DG), (prior_sum alpha g t'' R), <- rsum_plus, rsum_params. apply rsum_ext. intros j _. apply rsum_ext. intros k _. lra.
Qed.
Lemma learned_best g t'' : relab g h root t'' -> dists g h root -> loglik t'' + prior alpha g <= loglik t' + prior alpha f /\
  (loglik t'' + prior alpha g = loglik t' + prior alpha f -> forall i nd, reach h root i -> nth_error h i = Some nd -> match n_body nd with BLit _ => True | _ => g i = f i end).
Proof.
  intros RG DG. rewrite (objective_sum g t'' RG DG), (objective_sum f t' RF learned_dists). split.
  - apply rsum_le. intros j Hj. apply (best_at g t'' j RG DG Hj).
  - intros EE i nd Hi E. apply (so_in _ _ _ SO) in Hi. apply (proj2 (best_at g t'' i RG DG Hi)); auto.
    assert (rsum (fun j => rsum (fun k => (cnt (j, k) + alpha) * ln (par f (j, k))) (seq 0 (ar j)) + -1 * rsum (fun k => (cnt (j, k) + alpha) * ln (par g (j, k))) (seq 0 (ar j))) L = 0) as Z.
    { rewrite rsum_plus, rsum_scal. lra. }
    apply (rsum_zero_all _ L) with (a := i) in Z; [lra| |exact Hi]. intros j Hj. pose proof (proj1 (best_at g t'' j RG DG Hj)). lra.
Qed.
End Best.
(** ** Maximum likelihood: also against parameters that are zero *)
Lemma nonneg_dists g t'' : relab g h root t'' -> nonneg t'' -> normalized t'' -> (forall p, In p params -> 0 < par g p) -> dists g h root.
Proof.
  intros R NN NO HP0 j nd Hj E. assert (In j L) as HjL by (apply (so_in _ _ _ SO); auto).
  destruct (relab_all g _ root j t'' R NO Hj) as (u & RU & NU). pose proof (relab_len g j u nd RU E) as LE.
  assert (length (g j) = arity nd -> Forall (fun a => 0 < a) (g j)) as FP.
  { intros LG. apply Forall_forall. intros a Ha. apply (In_nth _ _ 0) in Ha as (k & Hk & <-). apply (HP0 (j, k)). apply params_in. split; auto. unfold ar. rewrite E. lia. }
  inversion RU as [i0 nd' l E1 E2|i0 nd' v pt pf a b E1 E2 E3|i0 nd' es' tes tes' E1 E2 F EW PM]; subst; assert (nd' = nd) as -> by congruence; rewrite E2 in *; auto.
  - split; auto. rewrite E3. apply all_nodes_root in NU. simpl in *. lra.
  - split; auto. rewrite <- EW, rsum_map. apply all_nodes_root in NU. rewrite (rsum_perm _ _ _ PM). exact NU.
Qed.
Lemma cnt_pos p : 0 < cnt p -> exists x, In x recs /\ In p (pick x).
Proof.
  unfold cnt. induction recs as [|x l IH]; simpl; [lra|]. destruct (in_dec dec2 p (pick x)); [eauto|]. intros H. destruct IH as (y & Hy & Hp); [lra|eauto].
Qed.
Lemma rprod_ext {A} (u w : A -> R) l : (forall a, In a l -> u a = w a) -> rprod u l = rprod w l.
Proof. induction l as [|a l IH]; intros H; auto. simpl. rewrite (H a) by (left; auto). rewrite IH; auto. intros; apply H; right; auto. Qed.
Definition likelihood (t' : ptree) : R := rprod (weight t') (filter (base t') recs).
Lemma weight_pos g t'' x : relab g h root t'' -> (forall p, In p params -> 0 < par g p) -> base t'' x = true -> 0 < weight t'' x.
Proof.
  intros R HPos B. rewrite (proj1 (relab_facts val g h _ _ _ (HT root root_lt) R)) in B. rewrite (pick_weight g t'' x R B). apply rprod_pos. intros p Hp. apply HPos, (pick_params x); auto.
Qed.
Lemma likelihood_ln g t'' : relab g h root t'' -> (forall p, In p params -> 0 < par g p) -> 0 < likelihood t'' /\ ln (likelihood t'') = loglik t''.
Proof.
  intros R HPos. assert (forall x, In x (filter (base t'') recs) -> 0 < weight t'' x) as W. { intros x Hx. apply filter_In in Hx as [_ Hx]. eapply weight_pos; eauto. }
  split; [apply rprod_pos; auto|]. unfold likelihood, loglik. rewrite ln_rprod by auto. apply rsum_filter.
Qed.
Lemma learned_mle f t' : relab f h root t' ->
  (forall i nd, reach h root i -> nth_error h i = Some nd -> exists ns, node_counts val h root recs i nd ns /\ f i = freqs 0 ns) ->
  (forall i nd ns, reach h root i -> nth_error h i = Some nd -> node_counts val h root recs i nd ns -> Forall (fun n => 0 < rn n + 0) ns) ->
  forall g t'', relab g h root t'' -> nonneg t'' -> normalized t'' -> likelihood t'' <= likelihood t'.
Proof.
  intros RF HF HS g t'' RG NN NO. pose proof (learned_dists 0 f HF HS) as DF.
  destruct (likelihood_ln f t' RF (fun p Hp => par_pos f t' p RF DF Hp)) as [P1 L1].
  destruct (Forall_Exists_dec (fun p => 0 < par g p) (fun p => Rlt_dec 0 (par g p)) params) as [A|A].
  - rewrite Forall_forall in A. destruct (likelihood_ln g t'' RG A) as [P2 L2].
    pose proof (proj1 (learned_best 0 f t' RF HF HS g t'' RG (nonneg_dists g t'' RG NN NO A))) as B.
    unfold prior in B. rewrite <- L1, <- L2, !Rmult_0_l, !Rplus_0_r in B. destruct B as [B|B]; [left; apply ln_lt_inv; auto|right; apply ln_inv; auto].
  - apply Exists_exists in A as ((j & k) & Hp & A).
    assert (par g (j, k) = 0) as Z.
    { apply params_in in Hp as [HjL Hk]. apply (so_in _ _ _ SO) in HjL. destruct (relab_all g _ root j t'' RG NN HjL) as (u & RU & NU). apply all_nodes_root in NU.
      assert (0 <= par g (j, k)); [|lra]. unfold par, ar in *. cbn [fst snd]. destruct (nth_error h j) as [nd|] eqn:E; [|lia].
      unfold arity in Hk. inversion RU as [i0 nd' l E1 E2|i0 nd' v pt pf a b E1 E2 E3|i0 nd' es' tes tes' E1 E2 F EW PM]; subst; assert (nd' = nd) as -> by congruence; rewrite E2 in *; [lia| |].
      - rewrite E3. destruct k as [|[|k]]; simpl; simpl in NU; lra || lia.
      - rewrite <- EW. pose proof (Permutation_Forall (Permutation_sym PM) NU) as NU'. rewrite Forall_forall in NU'.
        destruct (Nat.lt_ge_cases k (length tes)) as [Lk|Lk]; [|rewrite nth_overflow by (rewrite map_length; auto); lra].
        assert (In (nth k (map tw tes) 0) (map tw tes)) as K by (apply nth_In; rewrite map_length; auto). apply in_map_iff in K as (te & <- & Hte). auto. }
    assert (0 < cnt (j, k)) as C.
    { apply params_in in Hp as [HjL Hk]. pose proof HjL as Hr. apply (so_in _ _ _ SO) in Hr. unfold ar in Hk. destruct (nth_error h j) as [nd|] eqn:E; [|lia].
      destruct (HF j nd Hr E) as (ns & NC & _). pose proof (node_counts_length _ _ _ _ _ _ _ NC) as LE. destruct (nth_error ns k) as [n|] eqn:En; [|apply nth_error_None in En; lia].
      rewrite <- (count_cnt j nd ns k n HjL E NC En). pose proof (HS j nd ns Hr E NC) as S. rewrite Forall_forall in S. specialize (S n (nth_error_In _ _ En)). lra. }
    apply cnt_pos in C as (x & Hx & Hpx).
    assert (base (T root) x = true) as B. { destruct (base (T root) x) eqn:B; auto. unfold pick in Hpx. rewrite (chosen_off (S root) x root root_lt B) in Hpx. destruct Hpx. }
    assert (likelihood t'' = 0) as ->; [|lra]. apply (rprod_zero _ _ x).
    + apply filter_In. split; auto. rewrite (proj1 (relab_facts val g h _ _ _ (HT root root_lt) RG)). auto.
    + rewrite (pick_weight g t'' x RG B). apply (rprod_zero _ _ (j, k)); auto.
Qed.
End Like.

Section Learned.
Context {P : pops} (val : P -> R) (HP : pexact P val).
(** LearnPsddParameters maximizes the likelihood times the prior, and nothing else does *)
Theorem learn_map (m : mgr P) fl root s t ud (dc : counts) (recs : list inst) (ex : examples) alpha : tidy val fl m -> psdd_at val m root s t -> deterministic t ->
  (forall v, In v (leaves s) -> ex v = Some (map (fun x => x v) recs)) ->
  (forall i nd, reach (m_heap m) root i -> nth_error (m_heap m) i = Some nd -> dc i = repeat 0%N (arity nd)) ->
  (forall i nd ns, reach (m_heap m) root i -> nth_error (m_heap m) i = Some nd -> node_counts val (m_heap m) root recs i nd ns -> Forall (fun n => 0 < rn n + val alpha) ns) ->
  exists r ud' dc' m' t' f L, LearnPsddParameters (m_heap m) ud dc root ex (length recs) alpha fl m = Ok (r, ud', dc', m') /\ psdd_at val m' r s t' /\
    SerializePsddNodes (m_heap m) [root] = Ok L /\ relab f (m_heap m) root t' /\ dists f (m_heap m) root /\
    forall g t'', relab g (m_heap m) root t'' -> dists g (m_heap m) root ->
      loglik recs t'' + prior (m_heap m) L (val alpha) g <= loglik recs t' + prior (m_heap m) L (val alpha) f /\
      (loglik recs t'' + prior (m_heap m) L (val alpha) g = loglik recs t' + prior (m_heap m) L (val alpha) f ->
         forall i nd, reach (m_heap m) root i -> nth_error (m_heap m) i = Some nd -> match n_body nd with BLit _ => True | _ => g i = f i end).
Proof.
  intros TD A D HX HD HA. destruct (learn_gen val HP m fl root s t ud dc recs ex alpha TD A HX HD HA) as (r & ud' & dc' & m' & t' & f & E & X & A' & _ & _ & RL & FQ & _).
  destruct (psdd_at_facts val m root s t A) as (HO & _ & _ & L & SO). destruct (rep_choice val (m_vt m) (m_heap m) HO) as [T HT].
  assert (deterministic (T root)) as DT. { rewrite (Rep_fun val (m_heap m) _ _ _ (HT root (root_lt _ _ HO root L SO)) (proj1 (proj2 A))). exact D. }
  exists r, ud', dc', m', t', f, L. split; auto. split; auto. split; [apply SO|]. split; auto. split; [exact (learned_dists val (m_vt m) (m_heap m) HO root recs (val alpha) f FQ HA)|].
  exact (learned_best val (m_vt m) (m_heap m) HO T HT root L SO DT recs (val alpha) f t' RL FQ HA).
Qed.
(** without smoothing, when every parameter is supported by a record: the maximum of the likelihood *)
Theorem learn_mle (m : mgr P) fl root s t ud (dc : counts) (recs : list inst) (ex : examples) alpha : tidy val fl m -> psdd_at val m root s t -> deterministic t ->
  (forall v, In v (leaves s) -> ex v = Some (map (fun x => x v) recs)) ->
  (forall i nd, reach (m_heap m) root i -> nth_error (m_heap m) i = Some nd -> dc i = repeat 0%N (arity nd)) ->
  val alpha = 0 -> (forall i nd ns, reach (m_heap m) root i -> nth_error (m_heap m) i = Some nd -> node_counts val (m_heap m) root recs i nd ns -> Forall (fun n => 0 < rn n) ns) ->
  exists r ud' dc' m' t', LearnPsddParameters (m_heap m) ud dc root ex (length recs) alpha fl m = Ok (r, ud', dc', m') /\ psdd_at val m' r s t' /\
    forall g t'', relab g (m_heap m) root t'' -> nonneg t'' -> normalized t'' -> likelihood recs t'' <= likelihood recs t'.
Proof.
  intros TD A D HX HD A0 HA.
  assert (forall i nd ns, reach (m_heap m) root i -> nth_error (m_heap m) i = Some nd -> node_counts val (m_heap m) root recs i nd ns -> Forall (fun n => 0 < rn n + val alpha) ns) as HA'.
  { intros i nd ns Hi E NC. eapply Forall_impl; [|exact (HA i nd ns Hi E NC)]. intros n Hn. cbv beta. lra. }
  destruct (learn_gen val HP m fl root s t ud dc recs ex alpha TD A HX HD HA') as (r & ud' & dc' & m' & t' & f & E & X & A' & _ & _ & RL & FQ & _).
  destruct (psdd_at_facts val m root s t A) as (HO & _ & _ & L & SO). destruct (rep_choice val (m_vt m) (m_heap m) HO) as [T HT].
  assert (deterministic (T root)) as DT. { rewrite (Rep_fun val (m_heap m) _ _ _ (HT root (root_lt _ _ HO root L SO)) (proj1 (proj2 A))). exact D. }
  exists r, ud', dc', m', t'. split; auto. split; auto. rewrite A0 in FQ, HA'.
  exact (learned_mle val (m_vt m) (m_heap m) HO T HT root L SO DT recs f t' RL FQ HA').
Qed.
End Learned.
